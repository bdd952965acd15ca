(** The pairs of a parse are the tree that the grammar describes. *)
From Coq Require Import String List NArith ZArith Arith Bool Lia.
From Verif Require Import Model_Text Model_Message Model_Meta Model_Import Model_Position Model_Span Model_Stack Model_Tracker Model_Node Model_Pairs
  Spec_Text Spec_Peg Spec_Run Spec_Yield Spec_Grammar_Peg Spec_Occur Spec_Generator Spec_Grammar_Tree
  Proof_Text Proof_Peg Proof_Leaf Proof_Compile.
Import ListNotations.
Open Scope list_scope.

Lemma matched_app : forall {A B : Type} (R : A -> B -> Prop) ps qs ps' qs', matched_all R ps qs -> matched_all R ps' qs' -> matched_all R (ps ++ ps') (qs ++ qs').
Proof. intros A B R ps qs ps' qs' H H'. induction H; [exact H'|]. cbn [app]. constructor; assumption. Qed.

Section Tree.
Variable addr : N.
Variable s : text.
Variable unicode : list text.
Variable property : N -> char -> bool.
Variable env : rule -> rule_def.
Variable id : list text -> text -> rule.
Variable place : list text -> gmodule -> Prop.
Variable open : gmodule -> parse_rule -> Prop.
Definition leaf_tree (g : gmodule) (rho : list (text * closure)) (e : parse_expr) (n : node) : Prop :=
  leaf n /\ leaf_expr unicode g rho e /\ forall pre post K r, gpeg unicode property g rho e pre post K r <-> peg env property n pre post K r.
Notation compiles := (compiles unicode id place leaf_tree).
Notation core := (core unicode id place leaf_tree).
Notation triv := (triv unicode id place leaf_tree).
Notation in_turn := (in_turn unicode id place leaf_tree).
Notation one_of := (one_of unicode id place leaf_tree).
Notation arguments := (arguments unicode id place leaf_tree).
Notation gpeg := (gpeg unicode property).
Notation gtree := (gtree unicode property open).
Notation gtree_items := (gtree_items unicode property open).
Notation gtree_rounds := (gtree_rounds unicode property open).
Notation runs := (run addr s env property).
Notation runs_items := (run_items addr s env property).
Notation runs_choice := (run_choice addr s env property).
Notation runs_rep := (run_rep addr s env property).
Hypothesis bodies : forall mp g r cs ns, place mp g -> In r (g_rules g) -> ~ is_trivia_rule r ->
  length cs = length (pr_args r) -> arguments cs ns ->
  compiles g (combine (pr_args r) cs) (n_expr (pr_node r)) (rd_body (env (id mp (pr_name r))) ns).
Hypothesis silence : forall mp g r, place mp g -> In r (g_rules g) -> ~ is_trivia_rule r -> rd_silent (env (id mp (pr_name r))) = pr_silent r.
Hypothesis closed : forall mp g r, place mp g -> In r (g_rules g) -> ~ open g r.
Notation like := (matched_all (numbered_as place id)).

Lemma leaves : forall g rho e n, leaf_tree g rho e n -> forall pre post K r, gpeg g rho e pre post K r <-> peg env property n pre post K r.
Proof. intros g rho e n (_ & _ & H). exact H. Qed.
Lemma same : forall g rho e n, compiles g rho e n -> forall pre post K r, peg env property n pre post K r <-> gpeg g rho e pre post K r.
Proof. intros g rho e n C pre post K r. eapply compiles_same; [exact leaves|exact bodies|exact C]. Qed.

(** Leaves have no pairs. *)
Lemma leaf_pairs :
  (forall chain pol n pre post K r tr, runs chain pol n pre post K r tr -> leaf n -> forall a b K' v, r = ROk a b K' v -> pairs env true v = []) /\
  (forall chain pol items pre post K r tr, runs_items chain pol items pre post K r tr -> True) /\
  (forall chain pol (i : nat) ts pre post K r tr, runs_choice chain pol i ts pre post K r tr -> Forall leaf ts -> forall a b K' v, r = ROk a b K' v -> pairs env true v = []) /\
  (forall chain pol x y mi ma i pre post K r tr, runs_rep chain pol x y mi ma i pre post K r tr -> True).
Proof.
  apply run_mutind; intros; try exact Logic.I; try discriminate; try (match goal with L : leaf _ |- _ => inversion L; discriminate end).
  - match goal with E : ROk _ _ _ _ = _ |- _ => injection E as <- <- <- <- end. destruct n; cbn [terminal_value]; repeat match goal with |- context [match ?x with _ => _ end] => destruct x end; reflexivity.
  - match goal with L : leaf _ |- _ => inversion L; subst; [discriminate|] end. eauto.
  - match goal with E : ROk _ _ _ _ = _ |- _ => injection E as <- <- <- <- end. match goal with F : Forall _ _ |- _ => inversion F; subst end. cbn [pairs]. eauto.
  - match goal with F : Forall _ _ |- _ => inversion F; subst end. eauto.
Qed.

Definition result_tree {V : Type} (pre post : text) (K : list span) (r : rresult V) (pv : V -> list (pair rule))
  (T : text -> text -> list text -> text -> text -> list text -> list (pair label) -> Prop) : Prop :=
  s = pre ++ post -> forall Ks, Forall2 span_text K Ks ->
  match r with
  | RFail => True
  | ROk pre' post' K' v => exists Ks' ps, Forall2 span_text K' Ks' /\ T pre post Ks pre' post' Ks' ps /\ like (pv v) ps
  end.

Lemma leaf_gtree : forall g rho e pre post K pre' post' K', leaf_expr unicode g rho e -> gpeg g rho e pre post K (Ok pre' post' K') -> gtree g rho e pre post K pre' post' K' [].
Proof.
  intros g rho e pre post K pre' post' K' L H. destruct e; try contradiction L; try (apply GT_text; [solve [eauto 6]|exact H]).
  destruct L as (N & q & Nm & Q). eapply GT_builtin; eassumption.
Qed.
Lemma peel_tree : forall g rho e n, compiles g rho e n ->
  exists g' rho' e', (leaf_tree g' rho' e' n \/ core g' rho' e' n) /\
    forall pre post K pre' post' K' ps, gtree g' rho' e' pre post K pre' post' K' ps -> gtree g rho e pre post K pre' post' K' ps.
Proof.
  fix Fx 5. intros g rho e n H. destruct H as [g rho e n H|g rho x args g' rho' e n A H|g rho a t n H|g rho e n H].
  - exists g, rho, e. split; [left; exact H|]. intros; assumption.
  - destruct (Fx _ _ _ _ H) as (g1 & rho1 & e1 & C & P). exists g1, rho1, e1. split; [exact C|]. intros. eapply GT_param; [exact A|]. apply P; assumption.
  - destruct (Fx _ _ _ _ H) as (g1 & rho1 & e1 & C & P). exists g1, rho1, e1. split; [exact C|]. intros. apply GT_separated. apply P; assumption.
  - exists g, rho, e. split; [right; exact H|]. intros; assumption.
Qed.
Lemma empty_result : forall pre post K a b K', peg env property Empty pre post K (Ok a b K') -> a = pre /\ b = post /\ K' = K.
Proof. intros pre post K a b K' H. inversion H as [n p q k r T| | | | | | | | | | | |]; subst. inversion T; subst. auto. Qed.
(** It is enough to look at expressions with nodes of their own. *)
Lemma lift : forall chain pol n pre post K r tr, runs chain pol n pre post K r tr ->
  (forall g rho e, core g rho e n -> result_tree pre post K r (pairs env true) (gtree g rho e)) ->
  forall g rho e, compiles g rho e n -> result_tree pre post K r (pairs env true) (gtree g rho e).
Proof.
  intros chain pol n pre post K r tr R H g rho e C. destruct (peel_tree _ _ _ _ C) as (g1 & rho1 & e1 & [L|C1] & P).
  - intros Hs Ks HK. destruct r as [|pre' post' K' v]; [exact Logic.I|].
    destruct (run_peg addr s env property _ _ _ _ _ _ _ _ R Hs Ks HK) as (m & Ks' & -> & -> & HK' & HP).
    exists Ks', []. split; [exact HK'|]. destruct L as (Lf & Le & Eq). split.
    + apply P. apply leaf_gtree; [exact Le|]. apply Eq, HP.
    + rewrite (proj1 leaf_pairs _ _ _ _ _ _ _ _ R Lf _ _ _ _ eq_refl). constructor.
  - specialize (H _ _ _ C1). intros Hs Ks HK. specialize (H Hs Ks HK). destruct r as [|pre' post' K' v]; [exact Logic.I|].
    destruct H as (Ks' & ps & HK' & T & L). exists Ks', ps. split; [exact HK'|]. split; [apply P, T|exact L].
Qed.

(** Kept and dropped nodes alternate, as do expressions and trivia. *)
Inductive alternate : bool -> list (bool * node) -> Prop :=
| Alt_nil b : alternate b []
| Alt_cons b n l : alternate (negb b) l -> alternate b ((b, n) :: l).
Inductive kinds : bool -> list item -> Prop :=
| Kinds_nil b : kinds b []
| Kinds_expr e l : kinds false l -> kinds true (It_expr e :: l)
| Kinds_trivia t l : kinds true l -> kinds false (It_trivia t :: l).
Lemma fields_alternate : forall fields, alternate true (kept_fields fields).
Proof.
  intros [|(t, tr) l]; [constructor|]. cbn [kept_fields]. constructor. cbn [negb]. induction l as [|(a, b) l IH]; [constructor|].
  cbn [flat_map app]. constructor. cbn [negb]. constructor. exact IH.
Qed.
Lemma seq_kinds : forall a t b, kinds true [It_expr a; It_trivia t; It_expr b].
Proof. repeat constructor. Qed.

Ltac tree := match goal with |- result_tree _ _ _ _ _ _ => intros Hs Ks HK; cbn beta iota end.

Theorem run_tree :
  (forall chain pol n pre post K r tr, runs chain pol n pre post K r tr ->
     forall g rho e, core g rho e n -> result_tree pre post K r (pairs env true) (gtree g rho e)) /\
  (forall chain pol items pre post K r tr, runs_items chain pol items pre post K r tr ->
     forall b g rho l, in_turn g rho l (map snd items) -> alternate b items -> kinds b l ->
     result_tree pre post K r (flat_map (pairs env true)) (gtree_items g rho l)) /\
  (forall chain pol (i : nat) ts pre post K r tr, runs_choice chain pol i ts pre post K r tr ->
     forall g rho e, one_of g rho e ts -> result_tree pre post K r (pairs env true) (gtree g rho e)) /\
  (forall chain pol x y mi ma i pre post K r tr, runs_rep chain pol x y mi ma i pre post K r tr ->
     forall g rho e t, compiles g rho e x -> triv g t y -> result_tree pre post K r (flat_map (pairs env true)) (gtree_rounds g rho e t mi ma i)).
Proof.
  apply run_mutind; intros; try (intros ? ? ?; exact Logic.I).
  - (* terminals have no core *) exfalso. match goal with C : core _ _ _ _ |- _ => destruct C end; inversion t.
  - (* positive *) match goal with C : core _ _ _ _ |- _ => inversion C; subst end. tree.
    match goal with R : runs _ _ _ _ _ _ _ _ |- _ => destruct (run_peg addr s env property _ _ _ _ _ _ _ _ R Hs Ks HK) as (m & Ks' & -> & -> & HK' & HP) end.
    exists Ks, []. split; [exact HK|]. split; [|constructor]. apply GT_predicate; [left; eauto|]. eapply G_positive_ok. eapply same; eassumption.
  - (* negative *) match goal with C : core _ _ _ _ |- _ => inversion C; subst end. tree.
    match goal with R : runs _ _ _ _ _ _ _ _ |- _ => assert (HP := run_peg addr s env property _ _ _ _ _ _ _ _ R Hs Ks HK) end. cbn beta iota in HP.
    exists Ks, []. split; [exact HK|]. split; [|constructor]. apply GT_predicate; [right; eauto|]. eapply G_negative_ok. eapply same; eassumption.
  - (* push *) match goal with C : core _ _ _ _ |- _ => inversion C; subst end. tree.
    match goal with R : runs _ _ _ _ _ _ _ _ |- _ => destruct (run_peg addr s env property _ _ _ _ _ _ _ _ R Hs Ks HK) as (m & Ks1 & -> & -> & _ & _);
      assert (IH := lift _ _ _ _ _ _ _ _ R H) end.
    match goal with C : compiles _ _ _ _ |- _ => destruct (IH _ _ _ C Hs Ks HK) as (Ks' & ps & HK' & T & L) end.
    exists (m :: Ks'), ps. split; [constructor; [exists pre, post'; repeat split; assumption|exact HK']|]. split; [|exact L].
    match goal with X : only_names _ _ _ _ |- _ => destruct X as (Nm & _) end. apply GT_push; assumption.
  - (* some *) match goal with C : core _ _ _ _ |- _ => inversion C; subst end. tree.
    match goal with R : runs _ _ _ _ _ _ _ _, C : compiles _ _ _ _ |- _ => destruct (lift _ _ _ _ _ _ _ _ R H _ _ _ C Hs Ks HK) as (Ks' & ps & HK' & T & L) end.
    exists Ks', ps. split; [exact HK'|]. split; [apply GT_some, T|exact L].
  - (* none *) match goal with C : core _ _ _ _ |- _ => inversion C; subst end. tree.
    match goal with R : runs _ _ _ _ _ _ _ _ |- _ => assert (HP := run_peg addr s env property _ _ _ _ _ _ _ _ R Hs Ks HK) end. cbn beta iota in HP.
    exists Ks, []. split; [exact HK|]. split; [|constructor]. apply GT_none. eapply same; eassumption.
  - (* repetition *) match goal with C : core _ _ _ _ |- _ => inversion C; subst end. tree.
    match goal with C : compiles _ _ _ _, Tr : triv _ _ _ |- _ => destruct (H _ _ _ _ C Tr Hs Ks HK) as (Ks' & ps & HK' & T & L) end.
    exists Ks', ps. split; [exact HK'|]. split; [eapply GT_repeat; eassumption|exact L].
  - (* sequence *) match goal with C : core _ _ _ _ |- _ => inversion C; subst end. tree.
    match goal with C : in_turn _ _ _ _ |- _ => rewrite <- kept_sequence in C; destruct (H _ _ _ _ C (fields_alternate _) (seq_kinds _ _ _) Hs Ks HK) as (Ks' & ps & HK' & T & L) end.
    exists Ks', ps. split; [exact HK'|]. split; [apply GT_seq, T|exact L].
  - (* choice *) match goal with C : core _ _ _ _ |- _ => inversion C; subst end. apply H. apply One_flat; assumption.
  - (* rule *) match goal with C : core _ _ _ _ |- _ => inversion C; subst end. tree.
    match goal with X : only_names _ _ _ _ |- _ => destruct X as (Nm & _) end.
    match goal with Pl : place ?mp ?g', Ir : In ?q _, Nt : ~ is_trivia_rule ?q, Al : all_compile _ _ _ _ _ _ ?l _, Le : length ?l = _ |- _ =>
      assert (C := bodies mp g' q _ _ Pl Ir Nt ltac:(rewrite map_length; exact Le) (all_compile_arguments _ _ _ _ _ _ _ _ Al));
      assert (Si := silence mp g' q Pl Ir Nt) end.
    match goal with R : runs _ _ _ _ _ _ _ _ |- _ => destruct (lift _ _ _ _ _ _ _ _ R H _ _ _ C Hs Ks HK) as (Ks' & ps & HK' & T & L);
      destruct (run_peg addr s env property _ _ _ _ _ _ _ _ R Hs Ks HK) as (m & Ks1 & Em & _ & HK1 & HP) end.
    cbn [pairs]. rewrite Si. match goal with |- context [pr_silent ?q] => destruct (pr_silent q) eqn:Sq end.
    + exists Ks1, []. split; [exact HK1|]. split; [|constructor]. eapply GT_silent; try eassumption; [eapply closed; eassumption|]. eapply same; eassumption.
    + exists Ks', [mkPair (g', r') (blen pre) (blen pre') ps]. split; [exact HK'|]. split; [eapply GT_rule; eassumption|].
      cbn [span_to sp_start sp_end]. constructor; [|constructor]. constructor; [|exact L]. exists mp. repeat split; assumption.
  - (* no items *) cbn [map] in *. match goal with C : in_turn _ _ _ _ |- _ => inversion C; subst end.
    + tree. exists Ks, []. split; [exact HK|]. split; constructor.
    + match goal with X : in_turn _ _ [_; _; _] [] |- _ => inversion X end.
  - (* an item and others *)
    match goal with A : alternate _ _ |- _ => inversion A; subst end. cbn [map snd] in *.
    match goal with R : runs _ _ _ _ _ _ _ _ |- _ => assert (IH := lift _ _ _ _ _ _ _ _ R H); assert (RP := run_peg addr s env property _ _ _ _ _ _ _ _ R) end.
    assert (Expr : forall g rho e l, compiles g rho e t -> in_turn g rho l (map snd ts) -> kinds false l -> b = true ->
      result_tree pre post K (ROk pre'' post'' K'' (keep b v vs)) (flat_map (pairs env true)) (gtree_items g rho (It_expr e :: l))).
    { intros g1 rho1 e1 l1 C1 Tu Ki ->. tree. destruct (RP Hs Ks HK) as (m & Ks1 & -> & -> & _ & _). destruct (IH _ _ _ C1 Hs Ks HK) as (Ks2 & ps & HK2 & T & L).
      match goal with IHs : context [gtree_items] |- _ => destruct (IHs _ _ _ _ Tu ltac:(eassumption) Ki ltac:(rewrite <- app_assoc; exact Hs) _ HK2) as (Ks3 & qs & HK3 & T3 & L3) end.
      exists Ks3, (ps ++ qs). split; [exact HK3|]. split; [eapply GTI_expr; eassumption|]. cbn [keep flat_map]. apply matched_app; assumption. }
    match goal with C : in_turn _ _ _ _ |- _ => inversion C; subst end.
    + match goal with Ki : kinds _ _ |- _ => inversion Ki; subst end. apply Expr; auto.
    + match goal with Ki : kinds _ _ |- _ => inversion Ki; subst end. tree. destruct (RP Hs Ks HK) as (m & Ks1 & -> & -> & HK1 & HP).
      match goal with IHs : context [gtree_items], Tu : in_turn _ _ _ _, Ki : kinds true _ |- _ =>
        destruct (IHs _ _ _ _ Tu ltac:(eassumption) Ki ltac:(rewrite <- app_assoc; exact Hs) _ HK1) as (Ks3 & qs & HK3 & T3 & L3) end.
      exists Ks3, qs. split; [exact HK3|]. split; [|exact L3].
      match goal with X : triv _ _ _ |- _ => inversion X; subst end.
      * destruct (empty_result _ _ _ _ _ _ HP) as (E1 & _ & ->). assert (m = []) as -> by (apply (app_inv_head pre); rewrite app_nil_r; exact E1).
        rewrite app_nil_r in T3. apply GTI_none. exact T3.
      * eapply GTI_trivia; [eassumption|eassumption| |exact T3]. eapply same; eassumption.
    + match goal with X : in_turn _ _ [_; _; _] _ |- _ => inversion X; subst end. match goal with Ki : kinds _ _ |- _ => inversion Ki; subst end.
      match goal with C1 : compiles _ _ _ t, Tu : in_turn _ _ [It_trivia _; _] _ |- _ =>
        assert (Q := Expr _ _ _ _ C1 Tu ltac:(repeat constructor) eq_refl) end.
      tree. destruct (Q Hs Ks HK) as (Ks3 & qs & HK3 & T3 & L3). exists Ks3, qs. split; [exact HK3|]. split; [|exact L3].
      rewrite <- (app_nil_r qs). eapply GTI_expr; [apply GT_seq, T3|constructor].
  - (* alternatives *)
    match goal with R : runs _ _ _ _ _ _ _ _ |- _ => assert (IH := lift _ _ _ _ _ _ _ _ R H) end.
    match goal with C : one_of _ _ _ _ |- _ => inversion C; subst end.
    + tree. match goal with C : compiles _ _ _ _ |- _ => exact (IH _ _ _ C Hs Ks HK) end.
    + tree. match goal with C : compiles _ _ _ t |- _ => destruct (IH _ _ _ C Hs Ks HK) as (Ks' & ps & HK' & T & L) end.
      exists Ks', ps. split; [exact HK'|]. split; [apply GT_left, T|exact L].
  - match goal with R : runs _ _ _ _ _ _ RFail _ |- _ => assert (RP := run_peg addr s env property _ _ _ _ _ _ _ _ R) end.
    match goal with C : one_of _ _ _ _ |- _ => inversion C; subst end.
    + match goal with R : runs_choice _ _ _ [] _ _ _ _ _ |- _ => inversion R; subst end. tree. exact Logic.I.
    + tree. assert (HP := RP Hs Ks HK). cbn beta iota in HP.
      match goal with IHc : forall g rho e, one_of g rho e ts -> _, C : one_of _ _ _ ts |- _ => assert (Q := IHc _ _ _ C Hs Ks HK) end.
      destruct r as [|pre' post' K' v]; [exact Logic.I|]. destruct Q as (Ks' & ps & HK' & T & L).
      exists Ks', ps. split; [exact HK'|]. split; [|exact L]. apply GT_right; [eapply same; eassumption|exact T].
  - (* rounds *) tree. exists Ks, []. split; [exact HK|]. split; [apply GTR_max; assumption|constructor].
  - match goal with R : runs_items _ _ _ _ _ _ _ _ |- _ => assert (RP := proj1 (proj2 (run_peg_all addr s env property)) _ _ _ _ _ _ _ _ R) end.
    tree. destruct (RP Hs Ks HK) as (m & Ks1 & -> & -> & _ & _). 
    assert (Rd : exists Ks2 ps, Forall2 span_text K' Ks2 /\ gtree_round unicode property open g rho e t0 i pre (m ++ post') Ks (pre ++ m) post' Ks2 ps /\ like (flat_map (pairs env true) vs) ps).
    { match goal with C1 : compiles _ _ _ t, Tr : triv _ _ _ |- _ => rename C1 into CC; rename Tr into TT end.
      match goal with IHi : context [gtree_items] |- _ => rename IHi into IHr end. unfold kept_round in IHr. destruct (N.eq_dec i 0) as [->|Ni].
      - destruct (IHr true g rho [It_expr e] ltac:(cbn [map snd]; apply Turn_expr; [exact CC|constructor]) ltac:(repeat constructor) ltac:(repeat constructor) Hs Ks HK) as (Ks2 & ps & A1 & A2 & A3).
        exists Ks2, ps. split; [exact A1|]. split; [apply GTR_first, A2|exact A3].
      - destruct (IHr false g rho [It_trivia t0; It_expr e] ltac:(cbn [map snd]; apply Turn_trivia; [exact TT|apply Turn_expr; [exact CC|constructor]]) ltac:(repeat constructor) ltac:(repeat constructor) Hs Ks HK) as (Ks2 & ps & A1 & A2 & A3).
        exists Ks2, ps. split; [exact A1|]. split; [apply GTR_later; [lia|exact A2]|exact A3]. }
    destruct Rd as (Ks2 & ps & HK2 & T & L).
    match goal with IHs : context [gtree_rounds] |- _ => destruct (IHs _ _ _ _ ltac:(eassumption) ltac:(eassumption) ltac:(rewrite <- app_assoc; exact Hs) _ HK2) as (Ks3 & qs & HK3 & T3 & L3) end.
    exists Ks3, (ps ++ qs). split; [exact HK3|]. split; [eapply GTR_round; eassumption|]. rewrite flat_map_app. apply matched_app; assumption.
  - match goal with R : runs_items _ _ _ _ _ _ _ _ |- _ => assert (RP := proj1 (proj2 (run_peg_all addr s env property)) _ _ _ _ _ _ _ _ R) end.
    tree. assert (HP := RP Hs Ks HK). cbn beta iota in HP. exists Ks, []. split; [exact HK|]. split; [|constructor]. apply GTR_stop; [assumption|assumption|].
    rewrite kept_round_items in HP. unfold round_items in HP.
    assert (Items : forall l ns, in_turn g rho l ns -> peg_items env property ns pre post Ks Fail -> gpeg_items unicode property g rho l pre post Ks Fail).
    { intros l1 ns Tu Pi. eapply peg_gpeg; [exact leaves|exact bodies|exact Pi|exact Tu]. }
    destruct (N.eq_dec i 0) as [->|Ni].
    + apply GR_first. eapply Items; [|exact HP]. apply Turn_expr; [assumption|constructor].
    + apply GR_later; [lia|]. eapply Items; [|exact HP]. apply Turn_trivia; [assumption|]. apply Turn_expr; [assumption|constructor].
Qed.
End Tree.
