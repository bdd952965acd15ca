(** The attempts of a parse are those that the grammar describes. *)
From Coq Require Import String List NArith ZArith Arith Bool Lia.
From Verif Require Import Model_Text Model_Message Model_Meta Model_Import Model_Position Model_Span Model_Stack Model_Tracker Model_Node Model_Pairs
  Spec_Text Spec_Peg Spec_Run Spec_Yield Spec_Grammar_Peg Spec_Occur Spec_Generator Spec_Grammar_Tree Spec_Grammar_Trace
  Proof_Text Proof_Peg Proof_Leaf Proof_Compile.
Import ListNotations.
Open Scope list_scope.

Section Trace.
Variable addr : N.
Variable s : text.
Variable unicode : list text.
Variable property : N -> char -> bool.
Variable env : rule -> rule_def.
Variable id : list text -> text -> rule.
Variable place : list text -> gmodule -> Prop.
Variable open : gmodule -> parse_rule -> Prop.
Hypothesis Closed : forall mp g q, place mp g -> In q (g_rules g) -> ~ open g q.
Definition leaf_trace (g : gmodule) (rho : list (text * closure)) (e : parse_expr) (n : node) : Prop :=
  leaf n /\ leaf_expr unicode g rho e /\ misused unicode g e n /\
  forall pre post K r, gpeg unicode property g rho e pre post K r <-> peg env property n pre post K r.
Notation compiles := (compiles unicode id place leaf_trace).
Notation core := (core unicode id place leaf_trace).
Notation triv := (triv unicode id place leaf_trace).
Notation in_turn := (in_turn unicode id place leaf_trace).
Notation one_of := (one_of unicode id place leaf_trace).
Notation arguments := (arguments unicode id place leaf_trace).
Notation gpeg := (gpeg unicode property).
Notation gtry := (gtry unicode property open).
Notation gtry_items := (gtry_items unicode property open).
Notation gtry_rounds := (gtry_rounds unicode property open).
Notation gtry_round := (gtry_round unicode property open).
Notation runs := (run addr s env property).
Notation runs_items := (run_items addr s env property).
Notation runs_choice := (run_choice addr s env property).
Notation runs_rep := (run_rep addr s env property).
Hypothesis bodies : forall mp g r cs ns, place mp g -> In r (g_rules g) -> ~ is_trivia_rule r ->
  length cs = length (pr_args r) -> arguments cs ns ->
  compiles g (combine (pr_args r) cs) (n_expr (pr_node r)) (rd_body (env (id mp (pr_name r))) ns).
Notation R := (numbered_as place id).
Notation like := (Forall2 (event_of R)).
Notation inside := (Forall2 (frame_of R)).

Lemma tried_like : forall tr gtr, like tr gtr -> tried_rule tr = tried_grammar_rule gtr.
Proof.
  intros tr gtr H. unfold tried_rule, tried_grammar_rule. induction H as [|x y l l' E H IH]; [reflexivity|]. cbn [existsb]. rewrite IH. destruct E; reflexivity.
Qed.

(** Harmless leaves leave no trace. *)
Lemma harmless_trace :
  (forall chain pol n pre post K r tr, runs chain pol n pre post K r tr -> leaf n -> harmless n = true -> tr = []) /\
  (forall chain pol items pre post K r tr, runs_items chain pol items pre post K r tr -> True) /\
  (forall chain pol (i : nat) ts pre post K r tr, runs_choice chain pol i ts pre post K r tr -> Forall leaf ts -> forallb harmless ts = true -> tr = []) /\
  (forall chain pol x y mi ma i pre post K r tr, runs_rep chain pol x y mi ma i pre post K r tr -> True).
Proof.
  apply run_mutind; intros; try exact Logic.I; try reflexivity; try (match goal with L : leaf _ |- _ => inversion L; discriminate end).
  - destruct n; try discriminate; reflexivity.
  - match goal with L : leaf _ |- _ => inversion L; subst; [discriminate|] end. eauto.
  - match goal with F : Forall _ _ |- _ => inversion F; subst end. cbn [forallb] in *. match goal with F : _ && _ = true |- _ => apply andb_prop in F; destruct F end. eauto.
  - match goal with F : Forall _ _ |- _ => inversion F; subst end. cbn [forallb] in *. match goal with F : _ && _ = true |- _ => apply andb_prop in F; destruct F end.
    match goal with IH : _ -> _ -> tr = [], IH' : _ -> _ -> tr' = [] |- _ => rewrite IH, IH' by assumption end. reflexivity.
Qed.

(** The result of a parse and of the grammar. *)
Definition agrees {V : Type} (r : rresult V) (res : result) : Prop :=
  match r, res with
  | RFail, Fail => True
  | ROk a b K _, Ok a' b' Ks => a = a' /\ b = b' /\ Forall2 span_text K Ks
  | _, _ => False
  end.
Definition traced {V : Type} (chain : list (rule * nat)) (pre post : text) (K : list span) (r : rresult V) (tr : list event)
  (T : list (label * nat) -> text -> text -> list text -> result -> list gevent -> Prop) : Prop :=
  s = pre ++ post -> forall gchain Ks, inside chain gchain -> Forall2 span_text K Ks ->
  exists res gtr, agrees r res /\ T gchain pre post Ks res gtr /\ like tr gtr.

Lemma run_agrees : forall chain pol n pre post K r tr, runs chain pol n pre post K r tr -> s = pre ++ post -> forall Ks, Forall2 span_text K Ks ->
  exists res, agrees r res /\ peg env property n pre post Ks res.
Proof.
  intros chain pol n pre post K r tr H Hs Ks HK. assert (Q := run_peg addr s env property _ _ _ _ _ _ _ _ H Hs Ks HK). destruct r as [|a b K' v].
  - exists Fail. split; [exact Logic.I|exact Q].
  - destruct Q as (m & Ks' & -> & -> & HK' & P). exists (Ok (pre ++ m) b Ks'). split; [split; [reflexivity|split; [reflexivity|exact HK']]|exact P].
Qed.
Lemma span_length : forall K Ks, Forall2 span_text K Ks -> length K = length Ks.
Proof. intros K Ks H. induction H; cbn [length]; congruence. Qed.

(** Out of bounds nothing is found. *)
Lemma admissible_index : forall len z, (exists lo, stack_index_of len z lo) <-> admissible len z = true.
Proof.
  intros len z. unfold admissible, stack_index_of. rewrite andb_true_iff, !Z.leb_le. split.
  - intros (lo & H). lia.
  - intros H. destruct (Z_lt_dec z 0); [exists (len - Z.to_nat (- z))|exists (Z.to_nat z)]; lia.
Qed.

Lemma leaf_gtry : forall chain pol g rho e n pre post K r tr, leaf_trace g rho e n -> runs chain pol n pre post K r tr ->
  traced chain pre post K r tr (fun gchain => gtry gchain pol g rho e).
Proof.
  intros chain pol g rho e n pre post K r tr (Lf & Le & Mi & Eq) H Hs gchain Ks In HK.
  destruct (run_agrees _ _ _ _ _ _ _ _ H Hs Ks HK) as (res & Ag & P). assert (G := proj2 (Eq _ _ _ _) P). exists res.
  assert (Len := span_length _ _ HK).
  destruct Mi as [e n Np Ha|p args q n Nm Ns Nt Nq Ha|p args q n Nm Ns Tt No|p range n Nm No].
  - exists []. rewrite (proj1 harmless_trace _ _ _ _ _ _ _ _ H Lf Ha). split; [exact Ag|]. split; [|constructor]. apply GA_text; [|exact G].
    destruct e; try contradiction Le; eauto 6. destruct (Np path args eq_refl).
  - exists []. rewrite (proj1 harmless_trace _ _ _ _ _ _ _ _ H Lf Ha). split; [exact Ag|]. split; [|constructor]. destruct Le as (Np & _).
    eapply GA_builtin; [exact Np|exact Nm|exact Nq|exact Ns|tauto|exact G].
  - destruct Le as (Np & _). destruct Ks as [|x Ks].
    + inversion HK; subst. assert (tr = [Special chain (blen pre) EmptyStack]) as ->.
      { destruct No as [->|[->| ->]]; inversion H; subst; try reflexivity;
          match goal with F : Forall2 _ [] _ |- _ => inversion F; subst end; match goal with T : terminal _ _ _ _ _ _ |- _ => inversion T; discriminate end. }
      eexists. split; [exact Ag|]. split; [eapply GA_empty; eassumption|]. constructor; [constructor; exact In|constructor].
    + inversion HK; subst. assert (tr = []) as -> by (destruct No as [->|[->| ->]]; inversion H; subst; reflexivity).
      exists []. split; [exact Ag|]. split; [|constructor]. eapply GA_builtin; [exact Np|exact Nm| |exact Ns| |exact G].
      * destruct Tt as [->|[->| ->]]; discriminate.
      * intros (_ & X). discriminate X.
  - destruct Le as (Np & _). destruct (in_bounds range (length Ks)) eqn:B.
    + assert (tr = []) as ->.
      { unfold in_bounds in B. apply andb_prop in B. destruct B as (B1 & B2). subst n. destruct (r_end range); inversion H; subst; try reflexivity;
          cbn [terminal_misuse]; rewrite Len, B1; cbn [andb]; try rewrite B2; reflexivity. }
      exists []. split; [exact Ag|]. split; [|constructor]. eapply GA_slice; eassumption.
    + assert (tr = [Special chain (blen pre) (SliceOutOfBound (slice_from range) (r_end range))]) as ->.
      { unfold in_bounds in B. subst n. destruct (r_end range); inversion H; subst.
        - exfalso. match goal with F : Forall2 _ K ?Kx, T : terminal _ _ _ ?Kx _ _ |- _ => assert (Lx := span_length _ _ F); inversion T; subst end.
          match goal with A : stack_index_of _ _ _, A' : stack_index_of _ z _ |- _ =>
            assert (Y := proj1 (admissible_index _ _) (ex_intro _ _ A)); assert (Y' := proj1 (admissible_index _ _) (ex_intro _ _ A')) end.
          rewrite <- Lx, Len in Y, Y'. rewrite Y, Y' in B. discriminate B.
        - cbn [terminal_misuse]. rewrite Len, B. reflexivity.
        - exfalso. match goal with F : Forall2 _ K ?Kx, T : terminal _ _ _ ?Kx _ _ |- _ => assert (Lx := span_length _ _ F); inversion T; subst end.
          match goal with A : stack_index_of _ _ _ |- _ => assert (Y := proj1 (admissible_index _ _) (ex_intro _ _ A)) end.
          rewrite <- Lx, Len in Y. rewrite Y in B. discriminate B.
        - cbn [terminal_misuse]. rewrite andb_true_r in B. rewrite Len, B. reflexivity. }
      eexists. split; [exact Ag|]. split; [eapply GA_bounds; eassumption|]. constructor; [constructor; exact In|constructor].
Qed.

Lemma peel_try : forall g rho e n, compiles g rho e n ->
  exists g' rho' e', (leaf_trace g' rho' e' n \/ core g' rho' e' n) /\
    forall chain pol pre post K r tr, gtry chain pol g' rho' e' pre post K r tr -> gtry chain pol g rho e pre post K r tr.
Proof.
  fix Fx 5. intros g rho e n H. destruct H as [g rho e n H|g rho x args g' rho' e n A H|g rho a t n H|g rho e n H].
  - exists g, rho, e. split; [left; exact H|]. intros; assumption.
  - destruct (Fx _ _ _ _ H) as (g1 & rho1 & e1 & C & P). exists g1, rho1, e1. split; [exact C|]. intros. eapply GA_param; [exact A|]. apply P; assumption.
  - destruct (Fx _ _ _ _ H) as (g1 & rho1 & e1 & C & P). exists g1, rho1, e1. split; [exact C|]. intros. apply GA_separated. apply P; assumption.
  - exists g, rho, e. split; [right; exact H|]. intros; assumption.
Qed.
Lemma lift_try : forall chain pol n pre post K r tr, runs chain pol n pre post K r tr ->
  (forall g rho e, core g rho e n -> traced chain pre post K r tr (fun gchain => gtry gchain pol g rho e)) ->
  forall g rho e, compiles g rho e n -> traced chain pre post K r tr (fun gchain => gtry gchain pol g rho e).
Proof.
  intros chain pol n pre post K r tr H IH g rho e C. destruct (peel_try _ _ _ _ C) as (g1 & rho1 & e1 & [L|C1] & P); intros Hs gchain Ks In HK.
  - destruct (leaf_gtry _ _ _ _ _ _ _ _ _ _ _ L H Hs gchain Ks In HK) as (res & gtr & Ag & T & Li). exists res, gtr. split; [exact Ag|]. split; [apply P, T|exact Li].
  - destruct (IH _ _ _ C1 Hs gchain Ks In HK) as (res & gtr & Ag & T & Li). exists res, gtr. split; [exact Ag|]. split; [apply P, T|exact Li].
Qed.
Lemma empty_run : forall chain pol pre post K r tr, runs chain pol Empty pre post K r tr -> tr = [] /\ exists v, r = ROk pre post K v.
Proof.
  intros chain pol pre post K r tr H. inversion H; subst; match goal with T : terminal _ _ _ _ _ _ |- _ => inversion T; subst end.
  split; [reflexivity|]. cbn [terminal_stack]. match goal with E : ?a = ?a ++ ?x |- _ => assert (x = []) as -> by (apply (app_inv_head a); rewrite app_nil_r; symmetry; exact E) end. rewrite app_nil_r. eexists. reflexivity.
Qed.
Lemma flat_items : forall gchain pol g rho l r t pre post K res gtr, gtry_items gchain pol g rho [It_expr (n_expr l); It_trivia t; It_expr (n_expr r)] pre post K res gtr ->
  gtry_items gchain pol g rho [It_expr (PSeq l r t)] pre post K res gtr.
Proof.
  intros gchain pol g rho l r t pre post K res gtr H. destruct res as [|a b c]; [apply GAI_expr_fail, GA_seq, H|]. rewrite <- (app_nil_r gtr).
  eapply GAI_expr; [apply GA_seq, H|constructor].
Qed.

(** The items of a round. *)
Lemma round_traced : forall V chain pol g rho e t n y i pre post K (r : rresult V) tr,
  (forall g rho l, in_turn g rho l (map snd (kept_round n y i)) -> traced chain pre post K r tr (fun gchain => gtry_items gchain pol g rho l)) ->
  compiles g rho e n -> triv g t y -> traced chain pre post K r tr (fun gchain => gtry_round gchain pol g rho e t i).
Proof.
  intros V chain pol g rho e t n y i pre post K r tr IH C Tr Hs gchain Ks In HK. unfold kept_round in IH. destruct (N.eq_dec i 0) as [->|Ni].
  - destruct (IH g rho [It_expr e] ltac:(cbn [map snd]; apply Turn_expr; [exact C|constructor]) Hs gchain Ks In HK) as (res & gtr & A & T & L).
    exists res, gtr. split; [exact A|]. split; [apply GAR_first, T|exact L].
  - destruct (IH g rho [It_trivia t; It_expr e] ltac:(cbn [map snd]; apply Turn_trivia; [exact Tr|apply Turn_expr; [exact C|constructor]]) Hs gchain Ks In HK) as (res & gtr & A & T & L).
    exists res, gtr. split; [exact A|]. split; [apply GAR_later; [lia|exact T]|exact L].
Qed.

Ltac trace := match goal with |- traced _ _ _ _ _ _ _ => intros Hs gchain Ks In HK; cbn beta iota end.
Ltac the_core := match goal with C : core _ _ _ _ |- _ => inversion C; subst end.
(* What the grammar does inside. *)
Ltac sub := match goal with
  | H : runs _ _ ?n _ _ _ _ _, IH : (forall g rho e, core g rho e ?n -> _), C : compiles _ _ _ ?n |- _ =>
      destruct (lift_try _ _ _ _ _ _ _ _ H IH _ _ _ C ltac:(eassumption) _ _ ltac:(eassumption) ltac:(eassumption)) as (res & gtr & Ag & T & L);
      destruct res as [|pa qa Ka]; try contradiction Ag; clear IH; try destruct Ag as (<- & <- & HKa)
  end.
Ltac close R := eexists _, _; split; [|split; [R|eassumption]]; [cbn [agrees]; auto].

Theorem run_try :
  (forall chain pol n pre post K r tr, runs chain pol n pre post K r tr ->
     forall g rho e, core g rho e n -> traced chain pre post K r tr (fun gchain => gtry gchain pol g rho e)) /\
  (forall chain pol items pre post K r tr, runs_items chain pol items pre post K r tr ->
     forall g rho l, in_turn g rho l (map snd items) -> traced chain pre post K r tr (fun gchain => gtry_items gchain pol g rho l)) /\
  (forall chain pol (i : nat) ts pre post K r tr, runs_choice chain pol i ts pre post K r tr ->
     forall g rho e, one_of g rho e ts -> traced chain pre post K r tr (fun gchain => gtry gchain pol g rho e)) /\
  (forall chain pol x y mi ma i pre post K r tr, runs_rep chain pol x y mi ma i pre post K r tr ->
     forall g rho e t, compiles g rho e x -> triv g t y -> traced chain pre post K r tr (fun gchain => gtry_rounds gchain pol g rho e t mi ma i)).
Proof.
  apply run_mutind; intros.
  1-2: exfalso; match goal with C : core _ _ _ _ |- _ => destruct C end; match goal with T : terminal _ _ _ _ _ _ |- _ => inversion T end.
  - the_core. trace. sub. close ltac:(eapply GA_positive_ok; eassumption).
  - the_core. trace. sub. close ltac:(eapply GA_positive_fail; eassumption).
  - the_core. trace. sub. close ltac:(eapply GA_negative_ok; eassumption).
  - the_core. trace. sub. close ltac:(eapply GA_negative_fail; eassumption).
  - (* push *) the_core. trace.
    match goal with X : only_names _ _ _ _ |- _ => destruct X as (Nm & _) end.
    match goal with H : runs _ _ _ _ _ _ _ _ |- _ => destruct (run_peg addr s env property _ _ _ _ _ _ _ _ H Hs Ks HK) as (m & Ks1 & -> & -> & _ & _) end.
    sub. eexists _, _. split; [|split; [eapply GA_push_ok; eassumption|eassumption]]. cbn [agrees]. split; [reflexivity|]. split; [reflexivity|].
    constructor; [exists pre, post'; repeat split; assumption|exact HKa].
  - the_core. trace. match goal with X : only_names _ _ _ _ |- _ => destruct X as (Nm & _) end. sub. close ltac:(eapply GA_push_fail; eassumption).
  - the_core. trace. sub. close ltac:(eapply GA_some; eassumption).
  - the_core. trace. sub. close ltac:(eapply GA_none; eassumption).
  - (* repetition *) the_core. trace.
    match goal with IH : forall g rho e t, _, C : compiles _ _ _ _, Tr : triv _ _ _ |- _ => destruct (IH _ _ _ _ C Tr Hs _ _ In HK) as ([|pa qa Ka] & gtr & Ag & T & L); [destruct Ag|destruct Ag as (<- & <- & HKa)] end.
    close ltac:(eapply GA_repeat; eassumption).
  - the_core. trace.
    match goal with IH : forall g rho e t, _, C : compiles _ _ _ _, Tr : triv _ _ _ |- _ => destruct (IH _ _ _ _ C Tr Hs _ _ In HK) as ([|pa qa Ka] & gtr & Ag & T & L); [|destruct Ag] end.
    close ltac:(eapply GA_repeat; eassumption).
  - (* sequence *) the_core. trace. match goal with C : in_turn _ _ _ _ |- _ => rewrite <- kept_sequence in C; destruct (H _ _ _ C Hs _ _ In HK) as ([|pa qa Ka] & gtr & Ag & T & L) end; [destruct Ag|destruct Ag as (<- & <- & HKa)].
    close ltac:(eapply GA_seq; eassumption).
  - the_core. trace. match goal with C : in_turn _ _ _ _ |- _ => rewrite <- kept_sequence in C; destruct (H _ _ _ C Hs _ _ In HK) as ([|pa qa Ka] & gtr & Ag & T & L) end; [|destruct Ag].
    close ltac:(eapply GA_seq; eassumption).
  - (* choice *) the_core. apply H. apply One_flat; assumption.
  - (* rule *) the_core. trace.
    match goal with X : only_names _ _ _ _ |- _ => destruct X as (Nm & _) end.
    match goal with Pl : place ?mp ?g', Ir : List.In ?q _, Nt : ~ is_trivia_rule ?q, Al : all_compile _ _ _ _ _ _ ?l _, Le : length ?l = _ |- _ =>
      assert (C := bodies mp g' q _ _ Pl Ir Nt ltac:(rewrite map_length; exact Le) (all_compile_arguments _ _ _ _ _ _ _ _ Al));
      assert (Nu : R (id mp (pr_name q)) (g', q)) by (exists mp; repeat split; assumption);
      assert (In' : inside ((id mp (pr_name q), blen pre) :: chain) (((g', q), blen pre) :: gchain)) by (constructor; [split; [exact Nu|reflexivity]|exact In]) end.
    match goal with Q : runs _ _ _ _ _ _ _ _ |- _ => destruct (lift_try _ _ _ _ _ _ _ _ Q H _ _ _ C Hs _ _ In' HK) as ([|pa qa Ka] & gtr & Ag & T & L); [destruct Ag|destruct Ag as (<- & <- & HKa)] end.
    eexists _, _. split; [|split; [eapply GA_rule; try eassumption; eapply Closed; eassumption|]]; [cbn [agrees]; auto|]. cbn [succeeded]. rewrite (tried_like _ _ L). apply Forall2_app; [exact L|].
    destruct (tried_grammar_rule gtr); [constructor|]. constructor; [constructor; assumption|constructor].
  - the_core. trace.
    match goal with X : only_names _ _ _ _ |- _ => destruct X as (Nm & _) end.
    match goal with Pl : place ?mp ?g', Ir : List.In ?q _, Nt : ~ is_trivia_rule ?q, Al : all_compile _ _ _ _ _ _ ?l _, Le : length ?l = _ |- _ =>
      assert (C := bodies mp g' q _ _ Pl Ir Nt ltac:(rewrite map_length; exact Le) (all_compile_arguments _ _ _ _ _ _ _ _ Al));
      assert (Nu : R (id mp (pr_name q)) (g', q)) by (exists mp; repeat split; assumption);
      assert (In' : inside ((id mp (pr_name q), blen pre) :: chain) (((g', q), blen pre) :: gchain)) by (constructor; [split; [exact Nu|reflexivity]|exact In]) end.
    match goal with Q : runs _ _ _ _ _ _ _ _ |- _ => destruct (lift_try _ _ _ _ _ _ _ _ Q H _ _ _ C Hs _ _ In' HK) as ([|pa qa Ka] & gtr & Ag & T & L); [|destruct Ag] end.
    eexists _, _. split; [|split; [eapply GA_rule; try eassumption; eapply Closed; eassumption|]]; [cbn [agrees]; auto|]. cbn [succeeded]. rewrite (tried_like _ _ L). apply Forall2_app; [exact L|].
    destruct (tried_grammar_rule gtr); [constructor|]. constructor; [constructor; assumption|constructor].
  - (* no items *) cbn [map] in *. match goal with C : in_turn _ _ _ _ |- _ => inversion C; subst end.
    + trace. eexists _, _. split; [|split; [constructor|constructor]]. cbn [agrees]. auto.
    + match goal with X : in_turn _ _ [_; _; _] [] |- _ => inversion X end.
  - (* an item and others *) cbn [map snd] in *.
    match goal with Q : runs _ _ _ _ _ _ _ _ |- _ => assert (IH := lift_try _ _ _ _ _ _ _ _ Q H); rename Q into Run end.
    match goal with IHs : context [gtry_items] |- _ => rename IHs into IHi end.
    assert (Expr : forall g rho e l, compiles g rho e t -> in_turn g rho l (map snd ts) ->
      traced chain pre post K (ROk pre'' post'' K'' (keep b v vs)) (tr ++ tr') (fun gchain => gtry_items gchain pol g rho (It_expr e :: l))).
    { intros g1 rho1 e1 l1 C1 Tu. trace. destruct (run_peg addr s env property _ _ _ _ _ _ _ _ Run Hs Ks HK) as (m & Ks1 & -> & -> & _ & _).
      destruct (IH _ _ _ C1 Hs _ _ In HK) as ([|pa qa Ka] & gtr & Ag & T & L); [destruct Ag|destruct Ag as (<- & <- & HKa)].
      destruct (IHi _ _ _ Tu ltac:(rewrite <- app_assoc; exact Hs) _ _ In HKa) as ([|pb qb Kb] & gtr' & Ag' & T' & L'); [destruct Ag'|].
      eexists _, _. split; [|split; [eapply GAI_expr; eassumption|apply Forall2_app; assumption]]. exact Ag'. }
    match goal with C : in_turn _ _ _ (_ :: _) |- _ => inversion C; subst end.
    + apply Expr; assumption.
    + match goal with X : triv _ _ _ |- _ => inversion X; subst end.
      * destruct (empty_run _ _ _ _ _ _ _ Run) as (-> & v' & E). injection E as -> -> -> ->. trace.
        destruct (IHi _ _ _ ltac:(eassumption) Hs _ _ In HK) as ([|pb qb Kb] & gtr' & Ag' & T' & L'); [destruct Ag'|].
        eexists _, _. split; [|split; [eapply GAI_none; eassumption|exact L']]. exact Ag'.
      * trace. destruct (run_peg addr s env property _ _ _ _ _ _ _ _ Run Hs Ks HK) as (m & Ks1 & -> & -> & _ & _).
        match goal with C1 : compiles _ [] _ t |- _ => destruct (IH _ _ _ C1 Hs _ _ In HK) as ([|pa qa Ka] & gtr & Ag & T & L); [destruct Ag|destruct Ag as (<- & <- & HKa)] end.
        destruct (IHi _ _ _ ltac:(eassumption) ltac:(rewrite <- app_assoc; exact Hs) _ _ In HKa) as ([|pb qb Kb] & gtr' & Ag' & T' & L'); [destruct Ag'|].
        eexists _, _. split; [|split; [eapply GAI_trivia; eassumption|apply Forall2_app; assumption]]. exact Ag'.
    + match goal with X : in_turn _ _ [_; _; _] _ |- _ => inversion X; subst end. trace.
      match goal with C1 : compiles _ _ _ t, Tu : in_turn _ _ [It_trivia _; _] _ |- _ => destruct (Expr _ _ _ _ C1 Tu Hs _ _ In HK) as (res & gtr & Ag & T & L) end.
      exists res, gtr. split; [exact Ag|]. split; [apply flat_items, T|exact L].
  - (* a later one fails *) cbn [map snd] in *.
    match goal with Q : runs _ _ _ _ _ _ _ _ |- _ => assert (IH := lift_try _ _ _ _ _ _ _ _ Q H); rename Q into Run end.
    match goal with IHs : context [gtry_items] |- _ => rename IHs into IHi end.
    assert (Expr : forall g rho e l, compiles g rho e t -> in_turn g rho l (map snd ts) ->
      traced chain pre post K (@RFail (list value)) (tr ++ tr') (fun gchain => gtry_items gchain pol g rho (It_expr e :: l))).
    { intros g1 rho1 e1 l1 C1 Tu. trace. destruct (run_peg addr s env property _ _ _ _ _ _ _ _ Run Hs Ks HK) as (m & Ks1 & -> & -> & _ & _).
      destruct (IH _ _ _ C1 Hs _ _ In HK) as ([|pa qa Ka] & gtr & Ag & T & L); [destruct Ag|destruct Ag as (<- & <- & HKa)].
      destruct (IHi _ _ _ Tu ltac:(rewrite <- app_assoc; exact Hs) _ _ In HKa) as ([|pb qb Kb] & gtr' & Ag' & T' & L'); [|destruct Ag'].
      eexists _, _. split; [|split; [eapply GAI_expr; eassumption|apply Forall2_app; assumption]]. exact Ag'. }
    match goal with C : in_turn _ _ _ (_ :: _) |- _ => inversion C; subst end.
    + apply Expr; assumption.
    + match goal with X : triv _ _ _ |- _ => inversion X; subst end.
      * destruct (empty_run _ _ _ _ _ _ _ Run) as (-> & v' & E). injection E as -> -> -> ->. trace.
        destruct (IHi _ _ _ ltac:(eassumption) Hs _ _ In HK) as ([|pb qb Kb] & gtr' & Ag' & T' & L'); [|destruct Ag'].
        eexists _, _. split; [|split; [eapply GAI_none; eassumption|exact L']]. exact Ag'.
      * trace. destruct (run_peg addr s env property _ _ _ _ _ _ _ _ Run Hs Ks HK) as (m & Ks1 & -> & -> & _ & _).
        match goal with C1 : compiles _ [] _ t |- _ => destruct (IH _ _ _ C1 Hs _ _ In HK) as ([|pa qa Ka] & gtr & Ag & T & L); [destruct Ag|destruct Ag as (<- & <- & HKa)] end.
        destruct (IHi _ _ _ ltac:(eassumption) ltac:(rewrite <- app_assoc; exact Hs) _ _ In HKa) as ([|pb qb Kb] & gtr' & Ag' & T' & L'); [|destruct Ag'].
        eexists _, _. split; [|split; [eapply GAI_trivia; eassumption|apply Forall2_app; assumption]]. exact Ag'.
    + match goal with X : in_turn _ _ [_; _; _] _ |- _ => inversion X; subst end. trace.
      match goal with C1 : compiles _ _ _ t, Tu : in_turn _ _ [It_trivia _; _] _ |- _ => destruct (Expr _ _ _ _ C1 Tu Hs _ _ In HK) as (res & gtr & Ag & T & L) end.
      exists res, gtr. split; [exact Ag|]. split; [apply flat_items, T|exact L].
  - (* the first one fails *) cbn [map snd] in *.
    match goal with Q : runs _ _ _ _ _ _ _ _ |- _ => assert (IH := lift_try _ _ _ _ _ _ _ _ Q H); rename Q into Run end.
    match goal with C : in_turn _ _ _ (_ :: _) |- _ => inversion C; subst end.
    + trace. match goal with C1 : compiles _ _ _ t |- _ => destruct (IH _ _ _ C1 Hs _ _ In HK) as ([|pa qa Ka] & gtr & Ag & T & L); [|destruct Ag] end. close ltac:(eapply GAI_expr_fail; eassumption).
    + match goal with X : triv _ _ _ |- _ => inversion X; subst end.
      * destruct (empty_run _ _ _ _ _ _ _ Run) as (_ & v' & E). discriminate E.
      * trace. match goal with C1 : compiles _ _ _ t |- _ => destruct (IH _ _ _ C1 Hs _ _ In HK) as ([|pa qa Ka] & gtr & Ag & T & L); [|destruct Ag] end. close ltac:(eapply GAI_trivia_fail; eassumption).
    + match goal with X : in_turn _ _ [_; _; _] _ |- _ => inversion X; subst end. trace.
      match goal with C1 : compiles _ _ _ t |- _ => destruct (IH _ _ _ C1 Hs _ _ In HK) as ([|pa qa Ka] & gtr & Ag & T & L); [|destruct Ag] end.
      close ltac:(apply flat_items; eapply GAI_expr_fail; eassumption).
  - (* alternatives *) match goal with C : one_of _ _ _ [] |- _ => inversion C end.
  - match goal with Q : runs _ _ _ _ _ _ _ _ |- _ => assert (IH := lift_try _ _ _ _ _ _ _ _ Q H) end.
    match goal with C : one_of _ _ _ _ |- _ => inversion C; subst end.
    + trace. match goal with C : compiles _ _ _ _ |- _ => destruct (IH _ _ _ C Hs _ _ In HK) as ([|pa qa Ka] & gtr & Ag & T & L); [destruct Ag|] end. close ltac:(eassumption).
    + trace. match goal with C : compiles _ _ _ t |- _ => destruct (IH _ _ _ C Hs _ _ In HK) as ([|pa qa Ka] & gtr & Ag & T & L); [destruct Ag|] end. close ltac:(eapply GA_left; eassumption).
  - match goal with Q : runs _ _ _ _ _ _ RFail _ |- _ => assert (IH := lift_try _ _ _ _ _ _ _ _ Q H) end.
    match goal with C : one_of _ _ _ _ |- _ => inversion C; subst end.
    + match goal with Q : runs_choice _ _ _ [] _ _ _ _ _ |- _ => inversion Q; subst end. rewrite app_nil_r. trace.
      match goal with C : compiles _ _ _ _ |- _ => destruct (IH _ _ _ C Hs _ _ In HK) as ([|pa qa Ka] & gtr & Ag & T & L); [|destruct Ag] end. close ltac:(eassumption).
    + trace. match goal with C : compiles _ _ _ t |- _ => destruct (IH _ _ _ C Hs _ _ In HK) as ([|pa qa Ka] & gtr & Ag & T & L); [|destruct Ag] end.
      match goal with IHc : forall g rho e, one_of g rho e ts -> _, C : one_of _ _ _ ts |- _ => destruct (IHc _ _ _ C Hs _ _ In HK) as (res & gtr' & Ag' & T' & L') end.
      exists res, (gtr ++ gtr'). split; [exact Ag'|]. split; [apply GA_right; assumption|apply Forall2_app; assumption].
  - (* rounds *) trace. eexists _, _. split; [|split; [apply GAR_max; assumption|constructor]]. cbn [agrees]. auto.
  - match goal with Q : runs_items _ _ _ _ _ _ _ _ |- _ => assert (RP := proj1 (proj2 (run_peg_all addr s env property)) _ _ _ _ _ _ _ _ Q) end.
    trace. destruct (RP Hs Ks HK) as (m & Ks1 & -> & -> & _ & _).
    match goal with C1 : compiles _ _ _ t, Tr : triv _ _ _ |- _ => destruct (round_traced _ _ _ _ _ _ _ _ _ _ _ _ _ _ _ H C1 Tr Hs _ _ In HK) as ([|pa qa Ka] & gtr & Ag & T & L) end; [destruct Ag|destruct Ag as (<- & <- & HKa)].
    match goal with C1 : compiles _ _ _ t, Tr : triv _ _ _ |- _ => destruct (H0 _ _ _ _ C1 Tr ltac:(rewrite <- app_assoc; exact Hs) _ _ In HKa) as (res & gtr' & Ag' & T' & L') end.
    exists res, (gtr ++ gtr'). split; [destruct res; exact Ag'|]. split; [eapply GAR_round; eassumption|apply Forall2_app; assumption].
  - match goal with Q : runs_items _ _ _ _ _ _ _ _ |- _ => assert (RP := proj1 (proj2 (run_peg_all addr s env property)) _ _ _ _ _ _ _ _ Q) end.
    trace. destruct (RP Hs Ks HK) as (m & Ks1 & -> & -> & _ & _).
    match goal with C1 : compiles _ _ _ t, Tr : triv _ _ _ |- _ => destruct (round_traced _ _ _ _ _ _ _ _ _ _ _ _ _ _ _ H C1 Tr Hs _ _ In HK) as ([|pa qa Ka] & gtr & Ag & T & L) end; [destruct Ag|destruct Ag as (<- & <- & HKa)].
    match goal with C1 : compiles _ _ _ t, Tr : triv _ _ _ |- _ => destruct (H0 _ _ _ _ C1 Tr ltac:(rewrite <- app_assoc; exact Hs) _ _ In HKa) as (res & gtr' & Ag' & T' & L') end.
    exists res, (gtr ++ gtr'). split; [destruct res; exact Ag'|]. split; [eapply GAR_round; eassumption|apply Forall2_app; assumption].
  - trace. match goal with C1 : compiles _ _ _ t, Tr : triv _ _ _ |- _ => destruct (round_traced _ _ _ _ _ _ _ _ _ _ _ _ _ _ _ H C1 Tr Hs _ _ In HK) as ([|pa qa Ka] & gtr & Ag & T & L); [|destruct Ag] end.
    eexists _, _. split; [|split; [apply GAR_stop; eassumption|exact L]]. cbn [agrees]. auto.
  - trace. match goal with C1 : compiles _ _ _ t, Tr : triv _ _ _ |- _ => destruct (round_traced _ _ _ _ _ _ _ _ _ _ _ _ _ _ _ H C1 Tr Hs _ _ In HK) as ([|pa qa Ka] & gtr & Ag & T & L); [|destruct Ag] end.
    eexists _, _. split; [|split; [apply GAR_fail; eassumption|exact L]]. cbn [agrees]. auto.
Qed.
End Trace.
