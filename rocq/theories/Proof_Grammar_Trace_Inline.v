(** What a grammar tries and what the grammar tries in which calls of silent rules with parameters are replaced by their bodies. *)
From Coq Require Import String List NArith ZArith Arith Bool Lia.
From Verif Require Import Model_Text Model_Message Model_Meta Model_Import Model_Tracker Model_Node Model_Pairs Model_Generator Model_Output Model_Inline
  Spec_Text Spec_Peg Spec_Run Spec_Grammar_Peg Spec_Occur Spec_Generator Spec_Inline Spec_Grammar_Tree
  Proof_Text Proof_Emit Proof_Box Proof_Compile Proof_Inline Proof_Inlined Proof_Inlining Proof_Grammar_Tree Proof_Grammar_Tree_Inline Spec_Grammar_Trace.
Import ListNotations.
Open Scope list_scope.

(** The same attempts of other rules. *)
Definition gframe_of (R : label -> label -> Prop) (a b : label * nat) : Prop := R (fst a) (fst b) /\ snd a = snd b.
Inductive gevent_of (R : label -> label -> Prop) : gevent -> gevent -> Prop :=
| GEv_attempt chain chain' l l' p pol ok :
    Forall2 (gframe_of R) chain chain' -> R l l' -> gevent_of R (G_attempt chain l p pol ok) (G_attempt chain' l' p pol ok)
| GEv_misuse chain chain' p x : Forall2 (gframe_of R) chain chain' -> gevent_of R (G_misuse chain p x) (G_misuse chain' p x).
Lemma tried_of : forall R tr tr', Forall2 (gevent_of R) tr tr' -> tried_grammar_rule tr = tried_grammar_rule tr'.
Proof. intros R tr tr' H. unfold tried_grammar_rule. induction H as [|x y l l' E H IH]; [reflexivity|]. cbn [existsb]. rewrite IH. destruct E; reflexivity. Qed.

Section Same.
Variable unicode : list text.
Variable property : N -> char -> bool.
Variable g g' : gmodule.
Variable kept : parse_rule -> parse_rule -> Prop.
Notation rel := (rel unicode g g').
Notation core := (core unicode g g').
Notation rel_clo := (rel_clo unicode g g').
Notation rel_args := (rel_args unicode g g').
Notation rel_nodes := (rel_nodes unicode g g').
Notation rel_items := (rel_items unicode g g').
Notation both := (both g g').
Notation names := (names unicode).
Notation gpeg := (gpeg unicode property).

Hypothesis kept_rel : forall r r' cs cs', kept r r' -> length cs = length (pr_args r) -> Forall2 rel_clo cs cs' ->
  rel g (combine (pr_args r) cs) (n_expr (pr_node r)) g' (combine (pr_args r') cs') (n_expr (pr_node r')).
Hypothesis kept_args : forall r r', kept r r' -> pr_args r = pr_args r'.
Hypothesis kept_trivia : forall t name r r', kept r r' -> trivia_name t = Some name -> pr_name r = name -> pr_args r = [].
Hypothesis same_rel : forall h rho rho' e, Forall2 (fun k k' : text * closure => fst k = fst k' /\ rel_clo (snd k) (snd k')) rho rho' -> rel h rho e h rho' e.
Hypothesis names_there : forall path ent, names g path ent -> (forall s, macro g s -> path <> [pr_name s]) ->
  names g' path ent \/ exists r r', ent = E_rule g r /\ names g' path (E_rule g' r') /\ kept r r'.
Hypothesis names_back : forall path ent, names g' path ent ->
  names g path ent \/ exists r r', ent = E_rule g' r' /\ names g path (E_rule g r) /\ kept r r'.
Hypothesis names_macro : forall s ent, macro g s -> names g [pr_name s] ent -> ent = E_rule g s.
Hypothesis trivia_there : forall t name r, trivia_name t = Some name -> last_rule g name r -> exists r', last_rule g' name r' /\ kept r r'.
Hypothesis trivia_back : forall t name r', trivia_name t = Some name -> last_rule g' name r' -> exists r, last_rule g name r /\ kept r r'.
Hypothesis kept_silent : forall r r', kept r r' -> pr_silent r = pr_silent r'.
Hypothesis kept_plain : forall r r', kept r r' -> ~ macro g r.
Hypothesis gone : forall s, ~ macro g' s.

Notation open_own := (open_own g).
Notation became := (became g g' kept).
Notation gtry := (gtry unicode property open_own).
Notation gtry_items := (gtry_items unicode property open_own).
Notation gtry_rounds := (gtry_rounds unicode property open_own).
Notation gtry_round := (gtry_round unicode property open_own).
Notation inside := (Forall2 (gframe_of became)).
Notation like := (Forall2 (gevent_of became)).

Lemma again : forall h rho e h' rho' e' pre post K r, core h rho e h' rho' e' -> gpeg h' rho' e' pre post K r -> gpeg h rho e pre post K r.
Proof. intros h rho e h' rho' e' pre post K r R. apply (rel_same unicode property g g' kept kept_rel kept_args kept_trivia same_rel names_there names_back names_macro trivia_there trivia_back). apply R_core, R. Qed.
Lemma builtin_left : forall h h' path q, both h h' -> names h' path (E_builtin q) -> names h path (E_builtin q).
Proof. intros h h' path q B. apply (builtin_both unicode g g' kept names_there names_back names_macro _ _ _ _ B). Qed.
Lemma trivia_left : forall h h' t name r', both h h' -> trivia_name t = Some name -> last_rule h' name r' ->
  exists r, last_rule h name r /\ rel h [] (n_expr (pr_node r)) h' [] (n_expr (pr_node r')).
Proof. exact (trivia_rel_back unicode g g' kept kept_rel kept_args kept_trivia same_rel trivia_back). Qed.
Lemma label_left : forall h h' path r', (h = g /\ h' = g' /\ (forall s, macro g s -> path <> [pr_name s])) \/ h = h' ->
  forall h1', names h' path (E_rule h1' r') -> exists h1 r, names h path (E_rule h1 r) /\ length (pr_args r) = length (pr_args r') /\
    (forall cs cs', length cs = length (pr_args r) -> Forall2 rel_clo cs cs' ->
      rel h1 (combine (pr_args r) cs) (n_expr (pr_node r)) h1' (combine (pr_args r') cs') (n_expr (pr_node r'))) /\
    pr_silent r = pr_silent r' /\ became (h1, r) (h1', r') /\ (open_own h1 r <-> open_own h1' r').
Proof. exact (names_label unicode g g' kept kept_rel kept_args same_rel names_back kept_silent kept_plain gone). Qed.

Lemma peel_left_try : forall h rho e h' rho' e', rel h rho e h' rho' e' ->
  (exists h1 rho1 e1, core h1 rho1 e1 h' rho' e' /\ forall chain pol pre post K r tr, gtry chain pol h1 rho1 e1 pre post K r tr -> gtry chain pol h rho e pre post K r tr) \/
  (exists x args h1' rho1' e1' h1 rho1 e1, e' = PPath [x] args /\ assoc x rho' (Clo h1' rho1' e1') /\ rel h1 rho1 e1 h1' rho1' e1' /\
     forall chain pol pre post K r tr, gtry chain pol h1 rho1 e1 pre post K r tr -> gtry chain pol h rho e pre post K r tr).
Proof.
  fix Fx 7. intros h rho e h' rho' e' H. destruct H as [h rho x args h1 rho1 e1 h' rho' e' A H|rho s l rho' e' M Nm N L H|h rho e h' rho' x args h1' rho1' e1' A H|h rho e h' rho' e' C].
  - destruct (Fx _ _ _ _ _ _ H) as [(h2 & rho2 & e2 & C & P)|(y & ar & a & b & c & h2 & rho2 & e2 & E & A2 & R & P)].
    + left. exists h2, rho2, e2. split; [exact C|]. intros. eapply GA_param; [exact A|apply P; assumption].
    + right. exists y, ar, a, b, c, h2, rho2, e2. split; [exact E|]. split; [exact A2|]. split; [exact R|]. intros. eapply GA_param; [exact A|apply P; assumption].
  - assert (S : forall chain pol pre post K r tr, gtry chain pol g (combine (pr_args s) (map (fun n => Clo g rho (n_expr n)) l)) (n_expr (pr_node s)) pre post K r tr ->
      gtry chain pol g rho (PPath [pr_name s] (Some (PCall l))) pre post K r tr).
    { intros chain pol pre post K r tr D. eapply GA_open; [exact N|exact Nm|left; reflexivity|exact L|split; [reflexivity|exact M]|exact D]. }
    destruct (Fx _ _ _ _ _ _ H) as [(h2 & rho2 & e2 & C & P)|(y & ar & a & b & c & h2 & rho2 & e2 & E & A2 & R & P)].
    + left. exists h2, rho2, e2. split; [exact C|]. intros. apply S, P. assumption.
    + right. exists y, ar, a, b, c, h2, rho2, e2. split; [exact E|]. split; [exact A2|]. split; [exact R|]. intros. apply S, P. assumption.
  - right. exists x, args, h1', rho1', e1', h, rho, e. split; [reflexivity|]. split; [exact A|]. split; [exact H|]. intros; assumption.
  - left. exists h, rho, e. split; [exact C|]. intros; assumption.
Qed.

Ltac norep := match goal with Q : forall min max, repetition _ _ _ _ <-> repetition _ _ _ _, X : exists min max, repetition _ _ _ _ |- _ =>
  let min := fresh in let max := fresh in exfalso; destruct X as (min & max & X); first [exact (rep_shape _ _ _ _ X)|apply Q in X; exact (rep_shape _ _ _ _ X)] end.
Ltac at_core R := let C := fresh "C" in let h1 := fresh "h1" in let rho1 := fresh "rho1" in let e1 := fresh "e1" in
  destruct (peel_left_try _ _ _ _ _ _ R) as [(h1 & rho1 & e1 & C & P)|(y & ar & h1' & rho1' & e1' & h1 & rho1 & e1 & Ey & Ay & R1 & P)];
  [inversion C; subst; try norep|try discriminate Ey].
Ltac no_parameter := exfalso; match goal with Np : (forall x c, _ = [x] -> ~ assoc x _ c), Ey : PPath _ _ = PPath [_] _, Ay : assoc _ _ _ |- _ =>
  injection Ey as -> _; eapply Np; [reflexivity|exact Ay] end.
Ltac inner n := match goal with X : rel _ _ _ _ _ (n_expr n), IH : (forall h rho e, rel h rho e _ _ (n_expr n) -> _), Ic : inside _ _ |- _ =>
  destruct (IH _ _ _ X _ Ic) as (tr & T & M) end.
Theorem try_back :
  (forall chain' pol h' rho' e' pre post K r tr', gtry chain' pol h' rho' e' pre post K r tr' -> forall h rho e, rel h rho e h' rho' e' -> forall chain, inside chain chain' ->
     exists tr, gtry chain pol h rho e pre post K r tr /\ like tr tr') /\
  (forall chain' pol h' rho' l' pre post K r tr', gtry_items chain' pol h' rho' l' pre post K r tr' -> forall h rho l, rel_items h rho h' rho' l l' -> forall chain, inside chain chain' ->
     exists tr, gtry_items chain pol h rho l pre post K r tr /\ like tr tr') /\
  (forall chain' pol h' rho' e' t min max i pre post K r tr', gtry_rounds chain' pol h' rho' e' t min max i pre post K r tr' -> forall h rho e, both h h' -> rel h rho e h' rho' e' ->
     forall chain, inside chain chain' -> exists tr, gtry_rounds chain pol h rho e t min max i pre post K r tr /\ like tr tr') /\
  (forall chain' pol h' rho' e' t i pre post K r tr', gtry_round chain' pol h' rho' e' t i pre post K r tr' -> forall h rho e, both h h' -> rel h rho e h' rho' e' ->
     forall chain, inside chain chain' -> exists tr, gtry_round chain pol h rho e t i pre post K r tr /\ like tr tr').
Proof.
  apply gtry_mutind.
  - (* text *) intros chain' pol h' rho' e' pre post K r Te H h rho e R chain Ic. at_core R;
      try (destruct Te as [(? & Te)|[(? & Te)|(? & ? & Te)]]; discriminate Te).
    + exists []. split; [|constructor]. apply P, GA_text; [left; eauto|]. eapply again; eassumption.
    + exists []. split; [|constructor]. apply P, GA_text; [right; left; eauto|]. eapply again; eassumption.
    + exists []. split; [|constructor]. apply P, GA_text; [right; right; eauto|]. eapply again; eassumption.
    + destruct Te as [(? & ->)|[(? & ->)|(? & ? & ->)]]; norep.
    + destruct Te as [(? & ->)|[(? & ->)|(? & ? & ->)]]; discriminate Ey.
  - (* built-in *) intros chain' pol h' rho' path args q pre post K r Np Nm Nq Ns Nt H h rho e R chain Ic. at_core R; [|no_parameter].
    exists []. split; [|constructor]. apply P. match goal with B : _ \/ _ |- _ => apply weaken in B; eapply GA_builtin; [assumption|eapply builtin_left; eassumption|exact Nq| |exact Nt|eapply again; eassumption] end.
    intros range E. match goal with A : rel_args _ _ _ _ _ _ |- _ => subst; inversion A; subst; eapply Ns; reflexivity end.
  - (* empty stack *) intros chain' pol h' rho' path args q pre post r Np Nm Ns Tt H h rho e R chain Ic. at_core R; [|no_parameter].
    eexists. split; [|constructor; [constructor; exact Ic|constructor]]. apply P.
    match goal with B : _ \/ _ |- _ => apply weaken in B; eapply GA_empty; [assumption|eapply builtin_left; eassumption| |exact Tt|eapply again; eassumption] end.
    intros range E. match goal with A : rel_args _ _ _ _ _ _ |- _ => subst; inversion A; subst; eapply Ns; reflexivity end.
  - (* slice *) intros chain' pol h' rho' path range q pre post K r Np Nm Bo H h rho e R chain Ic. at_core R; [|no_parameter].
    match goal with A : rel_args _ _ _ _ _ _ |- _ => inversion A; subst end. exists []. split; [|constructor]. apply P.
    match goal with B : _ \/ _ |- _ => apply weaken in B; eapply GA_slice; [assumption|eapply builtin_left; eassumption|exact Bo|eapply again; eassumption] end.
  - (* bounds *) intros chain' pol h' rho' path range q pre post K r Np Nm Bo H h rho e R chain Ic. at_core R; [|no_parameter].
    match goal with A : rel_args _ _ _ _ _ _ |- _ => inversion A; subst end. eexists. split; [|constructor; [constructor; exact Ic|constructor]]. apply P.
    match goal with B : _ \/ _ |- _ => apply weaken in B; eapply GA_bounds; [assumption|eapply builtin_left; eassumption|exact Bo|eapply again; eassumption] end.
  - (* parameter *) intros chain' pol h' rho' x args h2' rho2' e2' pre post K r tr' A H IH h rho e R chain Ic. at_core R.
    + exfalso. match goal with N : no_param [x] rho' |- _ => eapply N; [reflexivity|exact A] end.
    + injection Ey as <- <-. assert (Q := assoc_unique _ _ _ A _ Ay). injection Q as -> -> ->. destruct (IH _ _ _ R1 _ Ic) as (tr & T & M). exists tr. split; [apply P, T|exact M].
  - (* rule *) intros chain' pol h' rho' path args l h2' r' pre post K r tr' Np Nm Ca Le No H IH h rho e R chain Ic. at_core R; [|no_parameter].
    match goal with B : _ \/ _ |- _ => destruct (label_left _ _ _ _ B _ Nm) as (h2 & r2 & Nm2 & Le2 & Rb & _ & Lb & Op) end.
    match goal with A : rel_args _ _ _ _ _ _ |- _ => destruct (args_call_back _ _ _ _ _ _ _ _ _ _ A Ca) as (l0 & Ca0 & Rn) end.
    assert (L0 : length l0 = length (pr_args r2)) by (rewrite (rel_nodes_length _ _ _ _ _ _ _ _ _ Rn), Le2; exact Le).
    destruct (IH _ _ _ (Rb _ _ ltac:(rewrite map_length; exact L0) (rel_nodes_clo _ _ _ _ _ _ _ _ _ Rn)) (((h2, r2), blen pre) :: chain)) as (tr & T & M);
      [constructor; [split; [exact Lb|reflexivity]|exact Ic]|].
    eexists. split; [apply P; eapply GA_rule; [assumption|exact Nm2|exact Ca0|exact L0|rewrite Op; exact No|exact T]|].
    apply Forall2_app; [exact M|]. rewrite (tried_of _ _ _ M). destruct (tried_grammar_rule tr'); constructor; [|constructor]. constructor; assumption.
  - (* open rule *) intros chain' pol h' rho' path args l h2' r' pre post K r tr' Np Nm Ca Le No H IH h rho e R chain Ic. at_core R; [|no_parameter].
    match goal with B : _ \/ _ |- _ => destruct (label_left _ _ _ _ B _ Nm) as (h2 & r2 & Nm2 & Le2 & Rb & _ & Lb & Op) end.
    match goal with A : rel_args _ _ _ _ _ _ |- _ => destruct (args_call_back _ _ _ _ _ _ _ _ _ _ A Ca) as (l0 & Ca0 & Rn) end.
    assert (L0 : length l0 = length (pr_args r2)) by (rewrite (rel_nodes_length _ _ _ _ _ _ _ _ _ Rn), Le2; exact Le).
    destruct (IH _ _ _ (Rb _ _ ltac:(rewrite map_length; exact L0) (rel_nodes_clo _ _ _ _ _ _ _ _ _ Rn)) _ Ic) as (tr & T & M).
    exists tr. split; [|exact M]. apply P; eapply GA_open; [assumption|exact Nm2|exact Ca0|exact L0|rewrite Op; exact No|exact T].
  - (* push *) intros chain' pol h' rho' path n pre post K m post' K' tr' Np Nm H IH h rho e R chain Ic. at_core R; [|no_parameter].
    match goal with A : rel_args _ _ _ _ _ _ |- _ => inversion A; subst end. match goal with A : rel_nodes _ _ _ _ _ _ |- _ => inversion A; subst end.
    match goal with A : rel_nodes _ _ _ _ _ [] |- _ => inversion A; subst end.
    inner n. exists tr. split; [|exact M]. apply P.
    match goal with B : _ \/ h1 = _ |- _ => apply weaken in B; eapply GA_push_ok; [assumption|eapply builtin_left; eassumption|exact T] end.
  - intros chain' pol h' rho' path n pre post K tr' Np Nm H IH h rho e R chain Ic. at_core R; [|no_parameter].
    match goal with A : rel_args _ _ _ _ _ _ |- _ => inversion A; subst end. match goal with A : rel_nodes _ _ _ _ _ _ |- _ => inversion A; subst end.
    match goal with A : rel_nodes _ _ _ _ _ [] |- _ => inversion A; subst end.
    inner n. exists tr. split; [|exact M]. apply P.
    match goal with B : _ \/ h1 = _ |- _ => apply weaken in B; eapply GA_push_fail; [assumption|eapply builtin_left; eassumption|exact T] end.
  - (* predicates *) intros chain' pol h' rho' n pre post K pre' post' K' tr' H IH h rho e R chain Ic. at_core R. inner n. exists tr. split; [eapply P, GA_positive_ok, T|exact M].
  - intros chain' pol h' rho' n pre post K tr' H IH h rho e R chain Ic. at_core R. inner n. exists tr. split; [eapply P, GA_positive_fail, T|exact M].
  - intros chain' pol h' rho' n pre post K tr' H IH h rho e R chain Ic. at_core R. inner n. exists tr. split; [eapply P, GA_negative_ok, T|exact M].
  - intros chain' pol h' rho' n pre post K pre' post' K' tr' H IH h rho e R chain Ic. at_core R. inner n. exists tr. split; [eapply P, GA_negative_fail, T|exact M].
  - (* sequence *) intros chain' pol h' rho' l r t pre post K res tr' H IH h rho e R chain Ic. at_core R.
    destruct (IH h1 rho1 [It_expr (n_expr n); It_trivia t; It_expr (n_expr m)]) with (chain := chain) as (tr & T & M); [repeat (constructor; try assumption)|exact Ic|]. exists tr. split; [apply P, GA_seq, T|exact M].
  - (* choice *) intros chain' pol h' rho' l r pre post K pre' post' K' tr' H IH h rho e R chain Ic. at_core R. inner l. exists tr. split; [apply P, GA_left, T|exact M].
  - intros chain' pol h' rho' l r pre post K res tr' tr2' H IH H2 IH2 h rho e R chain Ic. at_core R. inner l.
    match goal with X : rel _ _ _ _ _ (n_expr r) |- _ => destruct (IH2 _ _ _ X _ Ic) as (tr2 & T2 & M2) end.
    exists (tr ++ tr2). split; [apply P, GA_right; assumption|apply Forall2_app; assumption].
  - (* option *) intros chain' pol h' rho' n pre post K pre' post' K' tr' H IH h rho e R chain Ic. at_core R. inner n. exists tr. split; [apply P, GA_some, T|exact M].
  - intros chain' pol h' rho' n pre post K tr' H IH h rho e R chain Ic. at_core R. inner n. exists tr. split; [apply P, GA_none, T|exact M].
  - (* repetition *) intros chain' pol h' rho' e' n min max t pre post K r tr' Rp Rt H IH h rho e R chain Ic. assert (Sh := rep_shape _ _ _ _ Rp).
    destruct (peel_left_try _ _ _ _ _ _ R) as [(h1 & rho1 & e1 & C & P)|(y & ar & h1' & rho1' & e1' & h1 & rho1 & e1 & Ey & Ay & R1 & P)]; [|rewrite Ey in Sh; contradiction].
    destruct C as [| | | | | | | | |h2 rho2 e2 n2 h' rho' e' n' B Q X Qt Rn|]; try contradiction.
    assert (En : n' = n) by (destruct X as (mi & ma & X); apply Q, rep_shape in X; destruct e'; try contradiction; congruence).
    subst n'. destruct (IH _ _ _ B Rn _ Ic) as (tr & T & M). exists tr. split; [|exact M]. apply P. eapply GA_repeat; [apply Q, Rp|apply Qt, Rt|exact T].
  - (* separated *) intros chain' pol h' rho' n t pre post K r tr' H IH h rho e R chain Ic. at_core R. inner n. exists tr. split; [apply P, GA_separated, T|exact M].
  - (* items *) intros chain' pol h' rho' pre post K h rho l R chain Ic. inversion R; subst. exists []. split; constructor.
  - intros chain' pol h' rho' e' l' pre post K pre' post' K' r tr' tr2' H IH H2 IH2 h rho l R chain Ic. inversion R; subst.
    match goal with X : rel _ _ _ _ _ _ |- _ => destruct (IH _ _ _ X _ Ic) as (tr & T & M) end. match goal with X : rel_items _ _ _ _ _ l' |- _ => destruct (IH2 _ _ _ X _ Ic) as (tr2 & T2 & M2) end.
    exists (tr ++ tr2). split; [eapply GAI_expr; eassumption|apply Forall2_app; assumption].
  - intros chain' pol h' rho' e' l' pre post K tr' H IH h rho l R chain Ic. inversion R; subst.
    match goal with X : rel _ _ _ _ _ _ |- _ => destruct (IH _ _ _ X _ Ic) as (tr & T & M) end. exists tr. split; [apply GAI_expr_fail, T|exact M].
  - intros chain' pol h' rho' l' pre post K r tr' H IH h rho l R chain Ic. inversion R; subst. match goal with X : rel_items _ _ _ _ _ l' |- _ => destruct (IH _ _ _ X _ Ic) as (tr & T & M) end.
    exists tr. split; [apply GAI_none, T|exact M].
  - intros chain' pol h' rho' t name r' l' pre post K pre' post' K' r tr' tr2' T L H IH H2 IH2 h rho l R chain Ic. inversion R; subst.
    match goal with B : both _ _ |- _ => destruct (trivia_left _ _ _ _ _ B T L) as (r0 & L0 & Rt) end.
    destruct (IH _ _ _ Rt _ Ic) as (tr & Tr & M). match goal with X : rel_items _ _ _ _ _ l' |- _ => destruct (IH2 _ _ _ X _ Ic) as (tr2 & Tr2 & M2) end.
    exists (tr ++ tr2). split; [eapply GAI_trivia; eassumption|apply Forall2_app; assumption].
  - intros chain' pol h' rho' t name r' l' pre post K tr' T L H IH h rho l R chain Ic. inversion R; subst.
    match goal with B : both _ _ |- _ => destruct (trivia_left _ _ _ _ _ B T L) as (r0 & L0 & Rt) end.
    destruct (IH _ _ _ Rt _ Ic) as (tr & Tr & M). exists tr. split; [eapply GAI_trivia_fail; eassumption|exact M].
  - (* rounds *) intros chain' pol h' rho' e' t min max i pre post K L h rho e B R chain Ic. exists []. split; [apply GAR_max, L|constructor].
  - intros chain' pol h' rho' e' t min max i pre post K pre' post' K' r tr' tr2' L H IH H2 IH2 h rho e B R chain Ic.
    destruct (IH _ _ _ B R _ Ic) as (tr & T & M). destruct (IH2 _ _ _ B R _ Ic) as (tr2 & T2 & M2). exists (tr ++ tr2). split; [eapply GAR_round; eassumption|apply Forall2_app; assumption].
  - intros chain' pol h' rho' e' t min max i pre post K tr' L L' H IH h rho e B R chain Ic. destruct (IH _ _ _ B R _ Ic) as (tr & T & M). exists tr. split; [apply GAR_stop; assumption|exact M].
  - intros chain' pol h' rho' e' t min max i pre post K tr' L L' H IH h rho e B R chain Ic. destruct (IH _ _ _ B R _ Ic) as (tr & T & M). exists tr. split; [apply GAR_fail; assumption|exact M].
  - intros chain' pol h' rho' e' t pre post K r tr' H IH h rho e B R chain Ic. destruct (IH h rho [It_expr e]) with (chain := chain) as (tr & T & M); [repeat (constructor; try assumption)|exact Ic|].
    exists tr. split; [apply GAR_first, T|exact M].
  - intros chain' pol h' rho' e' t i pre post K r tr' L H IH h rho e B R chain Ic. destruct (IH h rho [It_trivia t; It_expr e]) with (chain := chain) as (tr & T & M); [repeat (constructor; try assumption)|exact Ic|].
    exists tr. split; [apply GAR_later; [exact L|exact T]|exact M].
Qed.
End Same.

(** Inlining keeps the attempts. *)
Theorem inlined_try : forall unicode property fuel g g', complete unicode g -> tidy unicode g -> inline_macros fuel g = Ret g' -> complete unicode g' ->
  (forall s, ~ macro g' s) ->
  forall r r', kept g g' fuel r r' -> pr_args r = [] ->
  forall pre post K res gtr', gtry_rule unicode property (open_own g) g' r' pre post K res gtr' ->
  exists gtr, gtry_rule unicode property (open_own g) g r pre post K res gtr /\ Forall2 (gevent_of (became g g' (kept g g' fuel))) gtr gtr'.
Proof.
  intros unicode property fuel g g' Cg Td Ei Cg' Go r r' Kp Na pre post K res gtr' (tr' & T & ->).
  assert (Be : became g g' (kept g g' fuel) (g, r) (g', r')) by (right; split; [reflexivity|split; [reflexivity|exact Kp]]).
  destruct (proj1 (try_back unicode property g g' (kept g g' fuel) (kept_rel unicode g g' fuel Cg Td Ei Cg') ltac:(eapply kept_args; eassumption) ltac:(eapply kept_trivia; eassumption)
    ltac:(eapply same_rel; eassumption) ltac:(eapply names_there; eassumption) ltac:(eapply names_back; eassumption) ltac:(eapply macro_names; eassumption)
    ltac:(eapply trivia_there; eassumption) ltac:(eapply trivia_back; eassumption) ltac:(intros q q' Q; apply Q)
    ltac:(intros q q' (_ & M & _) Q; apply is_macro_spec in Q; destruct Q; congruence) Go) _ _ _ _ _ _ _ _ _ _ T g [] (n_expr (pr_node r))) with (chain := [((g, r), blen pre)]) as (tr & T' & M).
  - assert (Q := kept_rel unicode g g' fuel Cg Td Ei Cg' r r' [] [] Kp). rewrite <- (kept_args _ _ _ _ _ Kp), Na in Q. apply Q; [reflexivity|constructor].
  - constructor; [split; [exact Be|reflexivity]|constructor].
  - eexists. split; [exists tr; split; [exact T'|reflexivity]|]. apply Forall2_app; [exact M|]. rewrite (tried_of _ _ _ M).
    destruct (tried_grammar_rule tr'); constructor; [|constructor]. constructor; [constructor|exact Be].
Qed.

(** The rules that are tried are from the grammar or from what it imports. *)
Section Light.
Variable unicode : list text.
Variable property : N -> char -> bool.
Variable open : gmodule -> parse_rule -> Prop.
Variable top : gmodule.
Notation light := (light top).
Notation light_env := (light_env top).
Definition light_frame (f : label * nat) : Prop := light (fst (fst f)).
Definition light_event (e : gevent) : Prop :=
  match e with G_attempt chain l _ _ _ => Forall light_frame chain /\ light (fst l) | G_misuse chain _ _ => Forall light_frame chain end.
Theorem light_try :
  (forall chain pol g rho e pre post K r tr, gtry unicode property open chain pol g rho e pre post K r tr -> Forall light_frame chain -> light g -> light_env rho -> Forall light_event tr) /\
  (forall chain pol g rho l pre post K r tr, gtry_items unicode property open chain pol g rho l pre post K r tr -> Forall light_frame chain -> light g -> light_env rho -> Forall light_event tr) /\
  (forall chain pol g rho e t min max i pre post K r tr, gtry_rounds unicode property open chain pol g rho e t min max i pre post K r tr -> Forall light_frame chain -> light g -> light_env rho -> Forall light_event tr) /\
  (forall chain pol g rho e t i pre post K r tr, gtry_round unicode property open chain pol g rho e t i pre post K r tr -> Forall light_frame chain -> light g -> light_env rho -> Forall light_event tr).
Proof.
  assert (Nil : light_env []) by (intros x c A; inversion A).
  apply (gtry_mutind unicode property open
    (fun chain pol g rho e pre post K r tr _ => Forall light_frame chain -> light g -> light_env rho -> Forall light_event tr)
    (fun chain pol g rho l pre post K r tr _ => Forall light_frame chain -> light g -> light_env rho -> Forall light_event tr)
    (fun chain pol g rho e t min max i pre post K r tr _ => Forall light_frame chain -> light g -> light_env rho -> Forall light_event tr)
    (fun chain pol g rho e t i pre post K r tr _ => Forall light_frame chain -> light g -> light_env rho -> Forall light_event tr)); intros;
    try (apply Forall_app; split); eauto.
  - match goal with E : light_env ?rho, A : assoc _ ?rho _ |- _ => apply E in A; inversion A; subst; auto end.
  - match goal with Nm : names _ _ _ (E_rule _ _), L : light _ |- _ => assert (L' := light_names _ open _ _ _ _ _ L Nm) end.
    match goal with IH : Forall _ _ -> light _ -> light_env _ -> _ |- _ => apply IH; [constructor; [exact L'|assumption]|exact L'|apply light_call; assumption] end.
  - match goal with Nm : names _ _ _ (E_rule _ _), L : light _ |- _ => assert (L' := light_names _ open _ _ _ _ _ L Nm) end.
    destruct (tried_grammar_rule tr); constructor; [|constructor]. split; assumption.
  - match goal with Nm : names _ _ _ (E_rule _ _), L : light _ |- _ => assert (L' := light_names _ open _ _ _ _ _ L Nm) end.
    match goal with IH : Forall _ _ -> light _ -> light_env _ -> _ |- _ => apply IH; [assumption|exact L'|apply light_call; assumption] end.
Qed.
Lemma light_rule : forall h r pre post K res gtr, gtry_rule unicode property open h r pre post K res gtr -> light h -> Forall light_event gtr.
Proof.
  intros h r pre post K res gtr (tr & T & ->) L. apply Forall_app. split.
  - eapply (proj1 light_try); [exact T|constructor; [exact L|constructor]|exact L|intros x c A; inversion A].
  - destruct (tried_grammar_rule tr); constructor; [|constructor]. split; [constructor|exact L].
Qed.
End Light.

(** Numbering through the change of grammars. *)
Lemma like_through : forall (R : rule -> label -> Prop) (Q : label -> label -> Prop) (S : rule -> label -> Prop) (P : gmodule -> Prop),
  (forall x y z, R x y -> Q z y -> P (fst z) -> S x z) ->
  forall tr gtr', Forall2 (event_of R) tr gtr' -> forall gtr, Forall2 (gevent_of Q) gtr gtr' ->
  Forall (fun e => match e with G_attempt chain l _ _ _ => Forall (fun f => P (fst (fst f))) chain /\ P (fst l) | G_misuse chain _ _ => Forall (fun f => P (fst (fst f))) chain end) gtr ->
  Forall2 (event_of S) tr gtr.
Proof.
  intros R Q S P H.
  assert (Ch : forall c c', Forall2 (frame_of R) c c' -> forall d, Forall2 (gframe_of Q) d c' -> Forall (fun f => P (fst (fst f))) d -> Forall2 (frame_of S) c d).
  { intros c c' F. induction F as [|x y c c' (E1 & E2) F IH]; intros d G L; inversion G as [|z ? d' ? (G1 & G2) G3]; subst; constructor.
    - inversion L; subst. split; [eapply H; eassumption|congruence].
    - inversion L; subst. apply IH; assumption. }
  intros tr gtr' F. induction F as [|x y tr gtr' E F IH]; intros gtr G L; inversion G as [|z ? gtr1 ? G1 G2]; subst; inversion L as [|? ? L1 L2]; subst; constructor; [|apply IH; assumption].
  destruct E; inversion G1; subst.
  - destruct L1 as (L1 & L3). constructor; [eapply Ch; eassumption|eapply H; eassumption].
  - constructor. eapply Ch; eassumption.
Qed.
