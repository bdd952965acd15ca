(** The trees of a grammar and of the grammar in which calls of silent rules with parameters are replaced by their bodies. *)
From Coq Require Import String List NArith ZArith Arith Bool Lia.
From Verif Require Import Model_Text Model_Message Model_Meta Model_Import Model_Node Model_Pairs Model_Generator Model_Output Model_Inline
  Spec_Text Spec_Peg Spec_Grammar_Peg Spec_Occur Spec_Generator Spec_Inline Spec_Grammar_Tree
  Proof_Text Proof_Emit Proof_Box Proof_Compile Proof_Inline Proof_Inlined Proof_Inlining Proof_Grammar_Tree.
Import ListNotations.
Open Scope list_scope.

Section Same.
Variable unicode : list text.
Variable property : N -> char -> bool.
Variable g g' : gmodule.
Variable kept : parse_rule -> parse_rule -> Prop.
Notation rel := (rel unicode g g').
Notation core := (core unicode g g').
Notation rel_clo := (rel_clo unicode g g').
Notation rel_args := (rel_args unicode g g').
Notation rel_nodes := (rel_nodes unicode g g').
Notation rel_items := (rel_items unicode g g').
Notation both := (both g g').
Notation names := (names unicode).
Notation gpeg := (gpeg unicode property).
Notation gpeg_round := (gpeg_round unicode property).

Hypothesis kept_rel : forall r r' cs cs', kept r r' -> length cs = length (pr_args r) -> Forall2 rel_clo cs cs' ->
  rel g (combine (pr_args r) cs) (n_expr (pr_node r)) g' (combine (pr_args r') cs') (n_expr (pr_node r')).
Hypothesis kept_args : forall r r', kept r r' -> pr_args r = pr_args r'.
Hypothesis kept_trivia : forall t name r r', kept r r' -> trivia_name t = Some name -> pr_name r = name -> pr_args r = [].
Hypothesis same_rel : forall h rho rho' e, Forall2 (fun k k' : text * closure => fst k = fst k' /\ rel_clo (snd k) (snd k')) rho rho' -> rel h rho e h rho' e.
Hypothesis names_there : forall path ent, names g path ent -> (forall s, macro g s -> path <> [pr_name s]) ->
  names g' path ent \/ exists r r', ent = E_rule g r /\ names g' path (E_rule g' r') /\ kept r r'.
Hypothesis names_back : forall path ent, names g' path ent ->
  names g path ent \/ exists r r', ent = E_rule g' r' /\ names g path (E_rule g r) /\ kept r r'.
Hypothesis names_macro : forall s ent, macro g s -> names g [pr_name s] ent -> ent = E_rule g s.
Hypothesis trivia_there : forall t name r, trivia_name t = Some name -> last_rule g name r -> exists r', last_rule g' name r' /\ kept r r'.
Hypothesis trivia_back : forall t name r', trivia_name t = Some name -> last_rule g' name r' -> exists r, last_rule g name r /\ kept r r'.
Hypothesis kept_silent : forall r r', kept r r' -> pr_silent r = pr_silent r'.
Hypothesis kept_plain : forall r r', kept r r' -> ~ macro g r.
Hypothesis gone : forall s, ~ macro g' s.

Notation open_own := (open_own g).
Definition became (l l' : label) : Prop := l = l' \/ (fst l = g /\ fst l' = g' /\ kept (snd l) (snd l')).
Notation gtree := (gtree unicode property open_own).
Notation gtree_items := (gtree_items unicode property open_own).
Notation gtree_rounds := (gtree_rounds unicode property open_own).
Notation gtree_round := (gtree_round unicode property open_own).

Lemma back : forall h rho e h' rho' e' pre post K r, rel h rho e h' rho' e' -> gpeg h' rho' e' pre post K r -> gpeg h rho e pre post K r.
Proof. intros h rho e h' rho' e' pre post K r R. apply (rel_same unicode property g g' kept kept_rel kept_args kept_trivia same_rel names_there names_back names_macro trivia_there trivia_back _ _ _ _ _ _ R). Qed.
Lemma back_round : forall h rho e h' rho' e' t i pre post K r, both h h' -> rel h rho e h' rho' e' -> gpeg_round h' rho' e' t i pre post K r -> gpeg_round h rho e t i pre post K r.
Proof.
  intros h rho e h' rho' e' t i pre post K r B R H.
  exact (proj2 (proj2 (proj2 (rel_back unicode property g g' kept kept_rel kept_args kept_trivia same_rel names_there names_back names_macro trivia_back))) _ _ _ _ _ _ _ _ _ H _ _ _ B R).
Qed.
Lemma both_names : forall h h' path q, both h h' -> names h path (E_builtin q) <-> names h' path (E_builtin q).
Proof. exact (builtin_both unicode g g' kept names_there names_back names_macro). Qed.
Lemma both_trivia : forall h h' t name r', both h h' -> trivia_name t = Some name -> last_rule h' name r' ->
  exists r, last_rule h name r /\ rel h [] (n_expr (pr_node r)) h' [] (n_expr (pr_node r')).
Proof. exact (trivia_rel_back unicode g g' kept kept_rel kept_args kept_trivia same_rel trivia_back). Qed.

Lemma peel_tree : forall h rho e h' rho' e', rel h rho e h' rho' e' ->
  (exists h1 rho1 e1, core h1 rho1 e1 h' rho' e' /\ forall pre post K a b c ps, gtree h1 rho1 e1 pre post K a b c ps -> gtree h rho e pre post K a b c ps) \/
  (exists x args h1' rho1' e1' h1 rho1 e1, e' = PPath [x] args /\ assoc x rho' (Clo h1' rho1' e1') /\ rel h1 rho1 e1 h1' rho1' e1' /\
     forall pre post K a b c ps, gtree h1 rho1 e1 pre post K a b c ps -> gtree h rho e pre post K a b c ps).
Proof.
  fix Fx 7. intros h rho e h' rho' e' H. destruct H as [h rho x args h1 rho1 e1 h' rho' e' A H|rho s l rho' e' M Nm N L H|h rho e h' rho' x args h1' rho1' e1' A H|h rho e h' rho' e' C].
  - destruct (Fx _ _ _ _ _ _ H) as [(h2 & rho2 & e2 & C & P)|(y & ar & a & b & c & h2 & rho2 & e2 & E & A2 & R & P)].
    + left. exists h2, rho2, e2. split; [exact C|]. intros. eapply GT_param; [exact A|apply P; assumption].
    + right. exists y, ar, a, b, c, h2, rho2, e2. split; [exact E|]. split; [exact A2|]. split; [exact R|]. intros. eapply GT_param; [exact A|apply P; assumption].
  - assert (S : forall pre post K a b c ps, gtree g (combine (pr_args s) (map (fun n => Clo g rho (n_expr n)) l)) (n_expr (pr_node s)) pre post K a b c ps ->
      gtree g rho (PPath [pr_name s] (Some (PCall l))) pre post K a b c ps).
    { intros pre post K a b c ps D. eapply GT_open; [exact N|exact Nm|left; reflexivity|exact L|apply M|split; [reflexivity|exact M]|exact D]. }
    destruct (Fx _ _ _ _ _ _ H) as [(h2 & rho2 & e2 & C & P)|(y & ar & a & b & c & h2 & rho2 & e2 & E & A2 & R & P)].
    + left. exists h2, rho2, e2. split; [exact C|]. intros. apply S, P. assumption.
    + right. exists y, ar, a, b, c, h2, rho2, e2. split; [exact E|]. split; [exact A2|]. split; [exact R|]. intros. apply S, P. assumption.
  - right. exists x, args, h1', rho1', e1', h, rho, e. split; [reflexivity|]. split; [exact A|]. split; [exact H|]. intros; assumption.
  - left. exists h, rho, e. split; [exact C|]. intros; assumption.
Qed.
Lemma names_label : forall h h' path r', (h = g /\ h' = g' /\ (forall s, macro g s -> path <> [pr_name s])) \/ h = h' ->
  forall h1', names h' path (E_rule h1' r') -> exists h1 r, names h path (E_rule h1 r) /\ length (pr_args r) = length (pr_args r') /\
    (forall cs cs', length cs = length (pr_args r) -> Forall2 rel_clo cs cs' ->
      rel h1 (combine (pr_args r) cs) (n_expr (pr_node r)) h1' (combine (pr_args r') cs') (n_expr (pr_node r'))) /\
    pr_silent r = pr_silent r' /\ became (h1, r) (h1', r') /\ (open_own h1 r <-> open_own h1' r').
Proof.
  intros h h' path r' B h1' H.
  assert (Same : names h path (E_rule h1' r') -> exists h1 r, names h path (E_rule h1 r) /\ length (pr_args r) = length (pr_args r') /\
    (forall cs cs', length cs = length (pr_args r) -> Forall2 rel_clo cs cs' ->
      rel h1 (combine (pr_args r) cs) (n_expr (pr_node r)) h1' (combine (pr_args r') cs') (n_expr (pr_node r'))) /\
    pr_silent r = pr_silent r' /\ became (h1, r) (h1', r') /\ (open_own h1 r <-> open_own h1' r')).
  { intro J. exists h1', r'. split; [exact J|]. split; [reflexivity|]. split; [intros cs cs' _ F; apply same_rel, (env_combine unicode g g'), F|].
    split; [reflexivity|]. split; [left; reflexivity|reflexivity]. }
  destruct B as [(-> & -> & N)|<-]; [|apply Same, H].
  destruct (names_back _ _ H) as [J|(r & r0 & E & J & Kp)]; [apply Same, J|]. injection E as -> ->.
  exists g, r. split; [exact J|]. split; [rewrite (kept_args _ _ Kp); reflexivity|]. split; [intros cs cs' L F; apply kept_rel; assumption|].
  split; [apply kept_silent, Kp|]. split; [right; split; [reflexivity|split; [reflexivity|exact Kp]]|].
  split; intros (E & M); exfalso; [exact (kept_plain _ _ Kp M)|]. rewrite E in gone. exact (gone _ M).
Qed.

Ltac norep := match goal with Q : forall min max, repetition _ _ _ _ <-> repetition _ _ _ _, X : exists min max, repetition _ _ _ _ |- _ =>
  let min := fresh in let max := fresh in exfalso; destruct X as (min & max & X); first [exact (rep_shape _ _ _ _ X)|apply Q in X; exact (rep_shape _ _ _ _ X)] end.
Ltac at_core R := let C := fresh "C" in let h1 := fresh "h1" in let rho1 := fresh "rho1" in let e1 := fresh "e1" in
  destruct (peel_tree _ _ _ _ _ _ R) as [(h1 & rho1 & e1 & C & P)|(y & ar & h1' & rho1' & e1' & h1 & rho1 & e1 & Ey & Ay & R1 & P)];
  [inversion C; subst; try norep|try discriminate Ey].
(** What a side has, the other has with the same offsets. *)
Theorem tree_back :
  (forall h' rho' e' pre post K a b c ps', gtree h' rho' e' pre post K a b c ps' -> forall h rho e, rel h rho e h' rho' e' ->
     exists ps, gtree h rho e pre post K a b c ps /\ matched_all became ps ps') /\
  (forall h' rho' l' pre post K a b c ps', gtree_items h' rho' l' pre post K a b c ps' -> forall h rho l, rel_items h rho h' rho' l l' ->
     exists ps, gtree_items h rho l pre post K a b c ps /\ matched_all became ps ps') /\
  (forall h' rho' e' t min max i pre post K a b c ps', gtree_rounds h' rho' e' t min max i pre post K a b c ps' -> forall h rho e, both h h' -> rel h rho e h' rho' e' ->
     exists ps, gtree_rounds h rho e t min max i pre post K a b c ps /\ matched_all became ps ps') /\
  (forall h' rho' e' t i pre post K a b c ps', gtree_round h' rho' e' t i pre post K a b c ps' -> forall h rho e, both h h' -> rel h rho e h' rho' e' ->
     exists ps, gtree_round h rho e t i pre post K a b c ps /\ matched_all became ps ps').
Proof.
  apply gtree_mutind.
  - intros h' rho' e' pre post K a b c Te H h rho e R. at_core R;
      try (destruct Te as [(? & Te)|[(? & Te)|(? & ? & Te)]]; discriminate Te).
    + exists []. split; [|constructor]. apply P, GT_text; [left; eauto|]. eapply back; [apply R_core, C|exact H].
    + exists []. split; [|constructor]. apply P, GT_text; [right; left; eauto|]. eapply back; [apply R_core, C|exact H].
    + exists []. split; [|constructor]. apply P, GT_text; [right; right; eauto|]. eapply back; [apply R_core, C|exact H].
    + destruct Te as [(? & ->)|[(? & ->)|(? & ? & ->)]]; norep.
    + destruct Te as [(? & ->)|[(? & ->)|(? & ? & ->)]]; discriminate Ey.
  - intros h' rho' path args q pre post K a b c Np Nm Nq H h rho e R. at_core R; [|exfalso; injection Ey as -> <-; eapply Np; [reflexivity|exact Ay]].
    exists []. split; [|constructor]. apply P. match goal with B : _ \/ _ |- _ => apply weaken in B; eapply GT_builtin; [assumption|apply (both_names _ _ _ _ B), Nm|exact Nq|] end.
    eapply back; [apply R_core, C|exact H].
  - intros h' rho' e' pre post K a b c Te H h rho e R. at_core R;
      try (destruct Te as [(? & Te)|(? & Te)]; discriminate Te).
    + exists []. split; [|constructor]. apply P, GT_predicate; [left; eauto|]. eapply back; [apply R_core, C|exact H].
    + exists []. split; [|constructor]. apply P, GT_predicate; [right; eauto|]. eapply back; [apply R_core, C|exact H].
    + destruct Te as [(? & ->)|(? & ->)]; norep.
    + destruct Te as [(? & ->)|(? & ->)]; discriminate Ey.
  - intros h' rho' x args h2' rho2' e2' pre post K a b c ps' A H IH h rho e R. at_core R.
    + exfalso. match goal with N : no_param [x] rho' |- _ => eapply N; [reflexivity|exact A] end.
    + injection Ey as <- <-. assert (Q := assoc_unique _ _ _ A _ Ay). injection Q as -> -> ->. destruct (IH _ _ _ R1) as (ps & T & M). exists ps. split; [apply P, T|exact M].
  - intros h' rho' path args l h2' r' pre post K a b c ps' Np Nm Ca Le Si H IH h rho e R. at_core R; [|exfalso; injection Ey as -> <-; eapply Np; [reflexivity|exact Ay]].
    match goal with B : _ \/ _ |- _ => destruct (names_label _ _ _ _ B _ Nm) as (h2 & r2 & Nm2 & Le2 & Rb & Si2 & Lb & _) end.
    match goal with A : rel_args _ _ _ _ _ _ |- _ => destruct (args_call_back _ _ _ _ _ _ _ _ _ _ A Ca) as (l0 & Ca0 & Rn) end.
    assert (L0 : length l0 = length (pr_args r2)) by (rewrite (rel_nodes_length _ _ _ _ _ _ _ _ _ Rn), Le2; exact Le).
    destruct (IH _ _ _ (Rb _ _ ltac:(rewrite map_length; exact L0) (rel_nodes_clo _ _ _ _ _ _ _ _ _ Rn))) as (ps & T & M).
    eexists. split; [apply P; eapply GT_rule; [assumption|exact Nm2|exact Ca0|exact L0|congruence|exact T]|]. constructor; [|constructor]. constructor; [exact Lb|exact M].
  - intros h' rho' path args l h2' r' pre post K a b c Np Nm Ca Le Si No H h rho e R. at_core R; [|exfalso; injection Ey as -> <-; eapply Np; [reflexivity|exact Ay]].
    match goal with B : _ \/ _ |- _ => destruct (names_label _ _ _ _ B _ Nm) as (h2 & r2 & Nm2 & Le2 & Rb & Si2 & Lb & Op) end.
    match goal with A : rel_args _ _ _ _ _ _ |- _ => destruct (args_call_back _ _ _ _ _ _ _ _ _ _ A Ca) as (l0 & Ca0 & Rn) end.
    assert (L0 : length l0 = length (pr_args r2)) by (rewrite (rel_nodes_length _ _ _ _ _ _ _ _ _ Rn), Le2; exact Le).
    exists []. split; [|constructor]. apply P. eapply GT_silent; [assumption|exact Nm2|exact Ca0|exact L0|congruence|rewrite Op; exact No|].
    eapply back; [|exact H]. apply Rb; [rewrite map_length; exact L0|apply rel_nodes_clo, Rn].
  - intros h' rho' path args l h2' r' pre post K a b c ps' Np Nm Ca Le Si No H IH h rho e R. at_core R; [|exfalso; injection Ey as -> <-; eapply Np; [reflexivity|exact Ay]].
    match goal with B : _ \/ _ |- _ => destruct (names_label _ _ _ _ B _ Nm) as (h2 & r2 & Nm2 & Le2 & Rb & Si2 & Lb & Op) end.
    match goal with A : rel_args _ _ _ _ _ _ |- _ => destruct (args_call_back _ _ _ _ _ _ _ _ _ _ A Ca) as (l0 & Ca0 & Rn) end.
    assert (L0 : length l0 = length (pr_args r2)) by (rewrite (rel_nodes_length _ _ _ _ _ _ _ _ _ Rn), Le2; exact Le).
    destruct (IH _ _ _ (Rb _ _ ltac:(rewrite map_length; exact L0) (rel_nodes_clo _ _ _ _ _ _ _ _ _ Rn))) as (ps & T & M).
    exists ps. split; [|exact M]. apply P; eapply GT_open; [assumption|exact Nm2|exact Ca0|exact L0|congruence|rewrite Op; exact No|exact T].
  - intros h' rho' path n pre post K m post' K' ps' Np Nm H IH h rho e R. at_core R; [|exfalso; injection Ey as -> <-; eapply Np; [reflexivity|exact Ay]].
    match goal with A : rel_args _ _ _ _ _ _ |- _ => inversion A; subst end. match goal with A : rel_nodes _ _ _ _ _ _ |- _ => inversion A; subst end.
    match goal with A : rel_nodes _ _ _ _ _ [] |- _ => inversion A; subst end.
    match goal with X : rel _ _ _ _ _ (n_expr n) |- _ => destruct (IH _ _ _ X) as (ps & T & M) end. exists ps. split; [|exact M]. apply P.
    match goal with B : _ \/ h1 = _ |- _ => apply weaken in B; eapply GT_push; [assumption|apply (both_names _ _ _ _ B), Nm|exact T] end.
  - intros h' rho' l r t pre post K a b c ps' H IH h rho e R. at_core R.
    destruct (IH h1 rho1 [It_expr (n_expr n); It_trivia t; It_expr (n_expr m)]) as (ps & T & M); [repeat (constructor; try assumption)|]. exists ps. split; [apply P, GT_seq, T|exact M].
  - intros h' rho' l r pre post K a b c ps' H IH h rho e R. at_core R.
    match goal with X : rel _ _ _ _ _ (n_expr l) |- _ => destruct (IH _ _ _ X) as (ps & T & M) end. exists ps. split; [apply P, GT_left, T|exact M].
  - intros h' rho' l r pre post K a b c ps' H H2 IH h rho e R. at_core R.
    match goal with X : rel _ _ _ _ _ (n_expr r) |- _ => destruct (IH _ _ _ X) as (ps & T & M) end. exists ps. split; [apply P, GT_right; [|exact T]|exact M].
    eapply back; eassumption.
  - intros h' rho' n pre post K a b c ps' H IH h rho e R. at_core R.
    match goal with X : rel _ _ _ _ _ (n_expr n) |- _ => destruct (IH _ _ _ X) as (ps & T & M) end. exists ps. split; [apply P, GT_some, T|exact M].
  - intros h' rho' n pre post K H h rho e R. at_core R. exists []. split; [|constructor]. apply P, GT_none. eapply back; eassumption.
  - intros h' rho' e' n min max t pre post K a b c ps' Rp Rt H IH h rho e R. assert (Sh := rep_shape _ _ _ _ Rp).
    destruct (peel_tree _ _ _ _ _ _ R) as [(h1 & rho1 & e1 & C & P)|(y & ar & h1' & rho1' & e1' & h1 & rho1 & e1 & Ey & Ay & R1 & P)]; [|rewrite Ey in Sh; contradiction].
    destruct C as [| | | | | | | | |h2 rho2 e2 n2 h' rho' e' n' B Q X Qt Rn|]; try contradiction.
    assert (En : n' = n) by (destruct X as (mi & ma & X); apply Q, rep_shape in X; destruct e'; try contradiction; congruence).
    subst n'. destruct (IH _ _ _ B Rn) as (ps & T & M). exists ps. split; [|exact M]. apply P. eapply GT_repeat; [apply Q, Rp|apply Qt, Rt|exact T].
  - intros h' rho' n t pre post K a b c ps' H IH h rho e R. at_core R.
    match goal with X : rel _ _ _ _ _ (n_expr n) |- _ => destruct (IH _ _ _ X) as (ps & T & M) end. exists ps. split; [apply P, GT_separated, T|exact M].
  - intros h' rho' pre post K h rho l R. inversion R; subst. exists []. split; constructor.
  - intros h' rho' e' l' pre post K a b c ps' pre' post' K' qs' H IH H2 IH2 h rho l R. inversion R; subst.
    match goal with X : rel _ _ _ _ _ _ |- _ => destruct (IH _ _ _ X) as (ps & T & M) end. match goal with X : rel_items _ _ _ _ _ l' |- _ => destruct (IH2 _ _ _ X) as (qs & T2 & M2) end.
    exists (ps ++ qs). split; [eapply GTI_expr; eassumption|apply matched_app; assumption].
  - intros h' rho' l' pre post K a b c qs' H IH h rho l R. inversion R; subst. match goal with X : rel_items _ _ _ _ _ l' |- _ => destruct (IH _ _ _ X) as (qs & T & M) end.
    exists qs. split; [apply GTI_none, T|exact M].
  - intros h' rho' t name r' l' pre post K pre' post' K' a b c qs' T L H H2 IH h rho l R. inversion R; subst.
    match goal with B : both _ _ |- _ => destruct (both_trivia _ _ _ _ _ B T L) as (r0 & L0 & Rt) end.
    match goal with X : rel_items _ _ _ _ _ l' |- _ => destruct (IH _ _ _ X) as (qs & Tr & M) end.
    exists qs. split; [|exact M]. eapply GTI_trivia; [exact T|exact L0|eapply back; eassumption|exact Tr].
  - intros h' rho' e' t min max i pre post K L h rho e B R. exists []. split; [apply GTR_max, L|constructor].
  - intros h' rho' e' t min max i pre post K pre' post' K' ps' a b c qs' L H IH H2 IH2 h rho e B R.
    destruct (IH _ _ _ B R) as (ps & T & M). destruct (IH2 _ _ _ B R) as (qs & T2 & M2). exists (ps ++ qs). split; [eapply GTR_round; eassumption|apply matched_app; assumption].
  - intros h' rho' e' t min max i pre post K L L' H h rho e B R. exists []. split; [|constructor]. apply GTR_stop; [exact L|exact L'|]. eapply back_round; eassumption.
  - intros h' rho' e' t pre post K a b c ps' H IH h rho e B R. destruct (IH h rho [It_expr e]) as (ps & T & M); [repeat (constructor; try assumption)|].
    exists ps. split; [apply GTR_first, T|exact M].
  - intros h' rho' e' t i pre post K a b c ps' L H IH h rho e B R. destruct (IH h rho [It_trivia t; It_expr e]) as (ps & T & M); [repeat (constructor; try assumption)|].
    exists ps. split; [apply GTR_later; [exact L|exact T]|exact M].
Qed.
End Same.

(** Inlining keeps the trees. *)
Theorem inlined_tree : forall unicode property fuel g g', complete unicode g -> tidy unicode g -> inline_macros fuel g = Ret g' -> complete unicode g' ->
  (forall s, ~ macro g' s) ->
  forall r r', kept g g' fuel r r' -> pr_args r = [] ->
  forall pre post K a b c ps', gtree unicode property (open_own g) g' [] (n_expr (pr_node r')) pre post K a b c ps' ->
  exists ps, gtree unicode property (open_own g) g [] (n_expr (pr_node r)) pre post K a b c ps /\ matched_all (became g g' (kept g g' fuel)) ps ps'.
Proof.
  intros unicode property fuel g g' Cg Td Ei Cg' Go r r' Kp Na pre post K a b c ps' T.
  refine (proj1 (tree_back unicode property g g' (kept g g' fuel) _ _ _ _ _ _ _ _ _ _ _ Go) _ _ _ _ _ _ _ _ _ _ T _ _ _ _).
  - eapply kept_rel; eassumption.
  - eapply kept_args; eassumption.
  - eapply kept_trivia; eassumption.
  - eapply same_rel; eassumption.
  - eapply names_there; eassumption.
  - eapply names_back; eassumption.
  - eapply macro_names; eassumption.
  - eapply trivia_there; eassumption.
  - eapply trivia_back; eassumption.
  - intros q q' Q. apply Q.
  - intros q q' (_ & M & _) Q. apply is_macro_spec in Q. destruct Q. congruence.
  - assert (Q := kept_rel unicode g g' fuel Cg Td Ei Cg' r r' [] [] Kp). rewrite <- (kept_args _ _ _ _ _ Kp), Na in Q. apply Q; [reflexivity|constructor].
Qed.

(** A grammar does not import itself. *)
Fixpoint weight (g : gmodule) : nat :=
  let 'mkModule _ _ _ imports := g in
  S ((fix go (l : list import) : nat := match l with [] => 0 | Builtin _ _ :: l => go l | File _ h :: l => weight h + go l end) imports).
Lemma weight_import : forall g alias h, In (File alias h) (g_imports g) -> weight h < weight g.
Proof.
  intros [d r dc imports] alias h I. cbn [g_imports] in I. cbn [weight]. apply Nat.lt_succ_r. induction imports as [|[b p|b k] l IH]; [contradiction| |].
  - destruct I as [I|I]; [discriminate|]. apply IH, I.
  - destruct I as [I|I]; [injection I as -> ->; lia|]. specialize (IH I). lia.
Qed.
Lemma weight_located : forall tm g m h, located tm g m h -> h = g \/ weight h < weight g.
Proof. intros tm g m h L. induction L as [|m h alias k L IH I]; [left; reflexivity|]. right. apply weight_import in I. destruct IH as [->|IH]; lia. Qed.
Lemma weight_located_strict : forall tm g g' m h, g_imports g' = g_imports g -> located tm g' m h -> h = g' \/ weight h < weight g.
Proof.
  intros tm g g' m h E L. induction L as [|m h alias k L IH I]; [left; reflexivity|]. right. destruct IH as [->|IH]; [rewrite E in I; apply weight_import in I; exact I|]. apply weight_import in I. lia.
Qed.

(** The rules in a tree are from the grammar or from what it imports. *)
Section Light.
Variable unicode : list text.
Variable property : N -> char -> bool.
Variable open : gmodule -> parse_rule -> Prop.
Variable top : gmodule.
Definition light (h : gmodule) : Prop := h = top \/ weight h < weight top.
Inductive light_clo : closure -> Prop := Light_clo h rho e : light h -> (forall x c, assoc x rho c -> light_clo c) -> light_clo (Clo h rho e).
Definition light_env (rho : list (text * closure)) : Prop := forall x c, assoc x rho c -> light_clo c.
Definition light_all (ps : list (pair label)) : Prop := forall l a b qs, Spec_Grammar_Tree.within (mkPair l a b qs) ps -> light (fst l).
Lemma light_nil : light_all [].
Proof. intros l a b qs H. inversion H. Qed.
Lemma light_app : forall ps qs, light_all ps -> light_all qs -> light_all (ps ++ qs).
Proof.
  intros ps qs A B. induction ps as [|p ps IH]; [exact B|]. intros l a b ks H. cbn [app] in H. inversion H; subst.
  - apply (A l a b ks). constructor.
  - apply (A l a b ks). apply Within_child. assumption.
  - apply (IH (fun l a b ks W => A l a b ks (Within_later _ _ _ W)) l a b ks). assumption.
Qed.
Lemma light_names : forall g p h q, light g -> names unicode g p (E_rule h q) -> light h.
Proof.
  intros g p h q L H. inversion H as [|p' x O _]; subst. remember (E_rule h q) as e eqn:E. clear H. induction O as [g r I _| |g alias g1 rest x I O IH]; try discriminate E.
  - injection E as <- <-. exact L.
  - apply IH; [|exact E]. apply weight_import in I. right. destruct L as [->|L]; lia.
Qed.
Lemma light_call : forall h rho xs l, light h -> light_env rho -> light_env (combine xs (map (fun n => Clo h rho (n_expr n)) l)).
Proof.
  intros h rho xs l Lh Lr. revert l. induction xs as [|x xs IH]; intros [|n l]; cbn [map combine]; intros y c A; inversion A; subst.
  - constructor; assumption.
  - eapply IH; eassumption.
Qed.
Theorem light_tree :
  (forall g rho e pre post K a b c ps, gtree unicode property open g rho e pre post K a b c ps -> light g -> light_env rho -> light_all ps) /\
  (forall g rho l pre post K a b c ps, gtree_items unicode property open g rho l pre post K a b c ps -> light g -> light_env rho -> light_all ps) /\
  (forall g rho e t min max i pre post K a b c ps, gtree_rounds unicode property open g rho e t min max i pre post K a b c ps -> light g -> light_env rho -> light_all ps) /\
  (forall g rho e t i pre post K a b c ps, gtree_round unicode property open g rho e t i pre post K a b c ps -> light g -> light_env rho -> light_all ps).
Proof.
  apply (gtree_mutind unicode property open
    (fun g rho e pre post K a b c ps _ => light g -> light_env rho -> light_all ps)
    (fun g rho l pre post K a b c ps _ => light g -> light_env rho -> light_all ps)
    (fun g rho e t min max i pre post K a b c ps _ => light g -> light_env rho -> light_all ps)
    (fun g rho e t i pre post K a b c ps _ => light g -> light_env rho -> light_all ps)); intros; eauto using light_nil, light_app.
  - match goal with E : light_env ?rho, A : assoc _ ?rho _ |- _ => apply E in A; inversion A; subst; auto end.
  - match goal with Nm : names _ _ _ (E_rule _ _), L : light _ |- _ => assert (L' := light_names _ _ _ _ L Nm) end.
    intros l0 a b qs W. inversion W; subst.
    + exact L'.
    + match goal with IH : light _ -> light_env _ -> light_all _ |- _ => eapply (IH L'); [apply light_call; assumption|eassumption] end.
    + match goal with X : Spec_Grammar_Tree.within _ [] |- _ => inversion X end.
  - match goal with Nm : names _ _ _ (E_rule _ _), L : light _ |- _ => assert (L' := light_names _ _ _ _ L Nm) end.
    match goal with IH : light _ -> light_env _ -> light_all _ |- _ => apply (IH L'); apply light_call; assumption end.
Qed.
End Light.

Scheme matched_one_mut := Induction for Spec_Grammar_Tree.matched Sort Prop
with matched_all_mut := Induction for Spec_Grammar_Tree.matched_all Sort Prop.
Lemma matched_through : forall (A B C : Type) (R : A -> B -> Prop) (Q : C -> B -> Prop) (S : A -> C -> Prop) (P : C -> Prop),
  (forall x y z, R x y -> Q z y -> P z -> S x z) ->
  forall ps qs, matched_all R ps qs -> forall ks, matched_all Q ks qs -> (forall l a b k, Spec_Grammar_Tree.within (mkPair l a b k) ks -> P l) -> matched_all S ps ks.
Proof.
  intros A B C R Q S P H ps qs M.
  apply (matched_all_mut A B R
    (fun p q _ => forall k, Spec_Grammar_Tree.matched Q k q -> (forall l a b x, Spec_Grammar_Tree.within (mkPair l a b x) [k] -> P l) -> Spec_Grammar_Tree.matched S p k)
    (fun ps qs _ => forall ks, matched_all Q ks qs -> (forall l a b k, Spec_Grammar_Tree.within (mkPair l a b k) ks -> P l) -> matched_all S ps ks)); [| | |exact M].
  - intros a b start stop ps0 qs0 Rab Ma IH k K W. inversion K; subst. constructor.
    + eapply H; [exact Rab|eassumption|]. eapply W. constructor.
    + apply IH; [assumption|]. intros l x y z J. eapply W. apply Within_child, J.
  - intros ks K W. inversion K; subst. constructor.
  - intros p q ps0 qs0 Mp IHp Ms IHs ks K W. inversion K; subst. constructor.
    + apply IHp; [assumption|]. intros l a b x J. apply (W l a b x). inversion J; subst; [constructor|apply Within_child; assumption|].
      match goal with X : Spec_Grammar_Tree.within _ [] |- _ => inversion X end.
    + apply IHs; [assumption|]. intros l a b x J. apply (W l a b x), Within_later, J.
Qed.
Lemma matched_refl : forall (A : Type) (R : A -> A -> Prop), (forall z, R z z) -> forall ks, matched_all R ks ks.
Proof.
  intros A R H. fix F 1. intros [|k ks]; constructor; [|apply F]. revert k. fix G 1. intros [a start stop cs]. constructor; [apply H|].
  revert cs. fix L 1. intros [|c cs]; constructor; [apply G|apply L].
Qed.
