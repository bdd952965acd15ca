(** Grammars with and without their silent rules with parameters mean the same. *)
From Coq Require Import String List NArith ZArith Arith Bool Lia.
From Verif Require Import Model_Text Model_Message Model_Meta Model_Import Model_Node Model_Generator Model_Output Model_Inline
  Spec_Text Spec_Peg Spec_Grammar_Peg Spec_Occur Spec_Generator Spec_Inline Proof_Text Proof_Emit Proof_Box Proof_Compile Proof_Inline.
Import ListNotations.
Open Scope list_scope.

Section Same.
Variable unicode : list text.
Variable property : N -> char -> bool.
Variable g g' : gmodule.
(** [kept r r']: the rule [r] of [g] has become the rule [r'] of [g']. *)
Variable kept : parse_rule -> parse_rule -> Prop.

Definition both (h h' : gmodule) : Prop := (h = g /\ h' = g') \/ h = h'.
Definition no_param (path : list text) (rho : list (text * closure)) : Prop := forall x c, path = [x] -> ~ assoc x rho c.

(** [rel h rho e h' rho' e']: the same with [g] on the left and [g'] on the right, where the calls of silent
    rules with parameters may be replaced by their bodies. *)
Inductive rel : gmodule -> list (text * closure) -> parse_expr -> gmodule -> list (text * closure) -> parse_expr -> Prop :=
| R_left h rho x args h1 rho1 e1 h' rho' e' :
    assoc x rho (Clo h1 rho1 e1) -> rel h1 rho1 e1 h' rho' e' -> rel h rho (PPath [x] args) h' rho' e'
| R_macro rho s l rho' e' :
    macro g s -> names unicode g [pr_name s] (E_rule g s) -> no_param [pr_name s] rho -> length l = length (pr_args s) ->
    rel g (combine (pr_args s) (map (fun n => Clo g rho (n_expr n)) l)) (n_expr (pr_node s)) g' rho' e' ->
    rel g rho (PPath [pr_name s] (Some (PCall l))) g' rho' e'
| R_right h rho e h' rho' x args h1' rho1' e1' :
    assoc x rho' (Clo h1' rho1' e1') -> rel h rho e h1' rho1' e1' -> rel h rho e h' rho' (PPath [x] args)
| R_core h rho e h' rho' e' : core h rho e h' rho' e' -> rel h rho e h' rho' e'
with core : gmodule -> list (text * closure) -> parse_expr -> gmodule -> list (text * closure) -> parse_expr -> Prop :=
| Q_str h rho h' rho' s : core h rho (PStr s) h' rho' (PStr s)
| Q_insens h rho h' rho' s : core h rho (PInsens s) h' rho' (PInsens s)
| Q_range h rho h' rho' a b : core h rho (PRange a b) h' rho' (PRange a b)
| Q_path h rho h' rho' path args args' :
    (h = g /\ h' = g' /\ (forall s, macro g s -> path <> [pr_name s])) \/ h = h' -> no_param path rho -> no_param path rho' ->
    rel_args h rho args h' rho' args' ->
    core h rho (PPath path args) h' rho' (PPath path args')
| Q_pos h rho n h' rho' n' : rel h rho (n_expr n) h' rho' (n_expr n') -> core h rho (PPosPred n) h' rho' (PPosPred n')
| Q_neg h rho n h' rho' n' : rel h rho (n_expr n) h' rho' (n_expr n') -> core h rho (PNegPred n) h' rho' (PNegPred n')
| Q_seq h rho n m h' rho' n' m' t : both h h' ->
    rel h rho (n_expr n) h' rho' (n_expr n') -> rel h rho (n_expr m) h' rho' (n_expr m') -> core h rho (PSeq n m t) h' rho' (PSeq n' m' t)
| Q_choice h rho n m h' rho' n' m' :
    rel h rho (n_expr n) h' rho' (n_expr n') -> rel h rho (n_expr m) h' rho' (n_expr m') -> core h rho (PChoice n m) h' rho' (PChoice n' m')
| Q_opt h rho n h' rho' n' : rel h rho (n_expr n) h' rho' (n_expr n') -> core h rho (POpt n) h' rho' (POpt n')
| Q_repeat h rho e n h' rho' e' n' : both h h' ->
    (forall min max, repetition e n min max <-> repetition e' n' min max) -> (exists min max, repetition e n min max) ->
    (forall t, round_trivia (n_expr n) t <-> round_trivia (n_expr n') t) ->
    rel h rho (n_expr n) h' rho' (n_expr n') -> core h rho e h' rho' e'
| Q_separated h rho n h' rho' n' t t' : rel h rho (n_expr n) h' rho' (n_expr n') -> core h rho (PSeparated n t) h' rho' (PSeparated n' t')
with rel_args : gmodule -> list (text * closure) -> option path_args -> gmodule -> list (text * closure) -> option path_args -> Prop :=
| A_none h rho h' rho' : rel_args h rho None h' rho' None
| A_slice h rho h' rho' range : rel_args h rho (Some (PSlice range)) h' rho' (Some (PSlice range))
| A_call h rho h' rho' l l' : rel_nodes h rho l h' rho' l' -> rel_args h rho (Some (PCall l)) h' rho' (Some (PCall l'))
with rel_nodes : gmodule -> list (text * closure) -> list parse_node -> gmodule -> list (text * closure) -> list parse_node -> Prop :=
| As_nil h rho h' rho' : rel_nodes h rho [] h' rho' []
| As_cons h rho n l h' rho' n' l' : rel h rho (n_expr n) h' rho' (n_expr n') -> rel_nodes h rho l h' rho' l' ->
    rel_nodes h rho (n :: l) h' rho' (n' :: l').

Definition rel_clo (c c' : closure) : Prop := match c, c' with Clo h rho e, Clo h' rho' e' => rel h rho e h' rho' e' end.

(** The rules and names of the grammars fit. *)
Hypothesis kept_rel : forall r r' cs cs', kept r r' -> length cs = length (pr_args r) -> Forall2 rel_clo cs cs' ->
  rel g (combine (pr_args r) cs) (n_expr (pr_node r)) g' (combine (pr_args r') cs') (n_expr (pr_node r')).
Hypothesis kept_args : forall r r', kept r r' -> pr_args r = pr_args r'.
Hypothesis kept_trivia : forall t name r r', kept r r' -> trivia_name t = Some name -> pr_name r = name -> pr_args r = [].
Hypothesis same_rel : forall h rho rho' e, Forall2 (fun k k' => fst k = fst k' /\ rel_clo (snd k) (snd k')) rho rho' -> rel h rho e h rho' e.
Hypothesis names_there : forall path ent, names unicode g path ent -> (forall s, macro g s -> path <> [pr_name s]) ->
  names unicode g' path ent \/ exists r r', ent = E_rule g r /\ names unicode g' path (E_rule g' r') /\ kept r r'.
Hypothesis names_back : forall path ent, names unicode g' path ent ->
  names unicode g path ent \/ exists r r', ent = E_rule g' r' /\ names unicode g path (E_rule g r) /\ kept r r'.
Hypothesis names_macro : forall s ent, macro g s -> names unicode g [pr_name s] ent -> ent = E_rule g s.
Hypothesis trivia_there : forall t name r, trivia_name t = Some name -> last_rule g name r -> exists r', last_rule g' name r' /\ kept r r'.
Hypothesis trivia_back : forall t name r', trivia_name t = Some name -> last_rule g' name r' -> exists r, last_rule g name r /\ kept r r'.

Notation names := (names unicode).
Notation gpeg := (gpeg unicode property).
Notation gpeg_items := (gpeg_items unicode property).
Notation gpeg_rounds := (gpeg_rounds unicode property).
Notation gpeg_round := (gpeg_round unicode property).

Lemma builtin_both : forall h h' path q, both h h' -> names h path (E_builtin q) <-> names h' path (E_builtin q) .
Proof.
  intros h h' path q [(-> & ->)|<-]; [|reflexivity]. split; intro H.
  - destruct (names_there _ _ H) as [J|(r & r' & E & _)]; [|exact J|discriminate].
    intros s M ->. apply (names_macro s _ M) in H. discriminate.
  - destruct (names_back _ _ H) as [J|(r & r' & E & _)]; [exact J|discriminate].
Qed.
Lemma rel_nodes_clo : forall h rho l h' rho' l', rel_nodes h rho l h' rho' l' ->
  Forall2 rel_clo (map (fun n => Clo h rho (n_expr n)) l) (map (fun n => Clo h' rho' (n_expr n)) l').
Proof. intros h rho l. induction l as [|n l IH]; intros h' rho' l' H; inversion H; subst; constructor; [assumption|apply IH; assumption]. Qed.
Lemma rel_nodes_length : forall h rho l h' rho' l', rel_nodes h rho l h' rho' l' -> length l = length l'.
Proof. intros h rho l. induction l as [|n l IH]; intros h' rho' l' H; inversion H; subst; cbn; [reflexivity|f_equal; eapply IH; eassumption]. Qed.
Lemma env_combine : forall xs cs cs', Forall2 rel_clo cs cs' ->
  Forall2 (fun k k' : text * closure => fst k = fst k' /\ rel_clo (snd k) (snd k')) (combine xs cs) (combine xs cs').
Proof. intros xs cs cs' H. revert xs. induction H as [|c c' l l' Hc Hl IH]; intros [|x xs]; constructor; [split; [reflexivity|exact Hc]|apply IH]. Qed.
Lemma args_call : forall h rho args h' rho' args' l, rel_args h rho args h' rho' args' -> call_arguments args l ->
  exists l', call_arguments args' l' /\ rel_nodes h rho l h' rho' l'.
Proof.
  intros h rho args h' rho' args' l A [->|(-> & ->)]; inversion A; subst.
  - eexists. split; [left; reflexivity|assumption].
  - exists []. split; [right; split; reflexivity|constructor].
Qed.
Lemma args_call_back : forall h rho args h' rho' args' l', rel_args h rho args h' rho' args' -> call_arguments args' l' ->
  exists l, call_arguments args l /\ rel_nodes h rho l h' rho' l'.
Proof.
  intros h rho args h' rho' args' l A [->|(-> & ->)]; inversion A; subst.
  - eexists. split; [left; reflexivity|assumption].
  - exists []. split; [right; split; reflexivity|constructor].
Qed.

(** The right side is reached by steps that keep the meaning. *)
Lemma peel_left : forall h rho e h' rho' e', rel h rho e h' rho' e' ->
  (exists h1 rho1 e1, core h1 rho1 e1 h' rho' e' /\ forall pre post K r, gpeg h1 rho1 e1 pre post K r -> gpeg h rho e pre post K r) \/
  (exists x args h1' rho1' e1' h1 rho1 e1, e' = PPath [x] args /\ assoc x rho' (Clo h1' rho1' e1') /\ rel h1 rho1 e1 h1' rho1' e1' /\
     forall pre post K r, gpeg h1 rho1 e1 pre post K r -> gpeg h rho e pre post K r).
Proof.
  fix Fx 7. intros h rho e h' rho' e' H. destruct H as [h rho x args h1 rho1 e1 h' rho' e' A H|rho s l rho' e' M Nm N L H|h rho e h' rho' x args h1' rho1' e1' A H|h rho e h' rho' e' C].
  - destruct (Fx _ _ _ _ _ _ H) as [(h2 & rho2 & e2 & C & P)|(y & ar & a & b & c & h2 & rho2 & e2 & E & A2 & R & P)].
    + left. exists h2, rho2, e2. split; [exact C|]. intros pre post K r D. eapply G_param; [exact A|apply P, D].
    + right. exists y, ar, a, b, c, h2, rho2, e2. split; [exact E|]. split; [exact A2|]. split; [exact R|]. intros pre post K r D. eapply G_param; [exact A|apply P, D].
  - assert (S : forall pre post K r, gpeg g (combine (pr_args s) (map (fun n => Clo g rho (n_expr n)) l)) (n_expr (pr_node s)) pre post K r ->
      gpeg g rho (PPath [pr_name s] (Some (PCall l))) pre post K r).
    { intros pre post K r D. eapply G_rule; [exact N|exact Nm|left; reflexivity|exact L|exact D]. }
    destruct (Fx _ _ _ _ _ _ H) as [(h2 & rho2 & e2 & C & P)|(y & ar & a & b & c & h2 & rho2 & e2 & E & A2 & R & P)].
    + left. exists h2, rho2, e2. split; [exact C|]. intros pre post K r D. apply S, P, D.
    + right. exists y, ar, a, b, c, h2, rho2, e2. split; [exact E|]. split; [exact A2|]. split; [exact R|]. intros pre post K r D. apply S, P, D.
  - right. exists x, args, h1', rho1', e1', h, rho, e. split; [reflexivity|]. split; [exact A|]. split; [exact H|]. intros; assumption.
  - left. exists h, rho, e. split; [exact C|]. intros; assumption.
Qed.
(** The same, seen from the left. *)
Lemma peel_right : forall h rho e h' rho' e', rel h rho e h' rho' e' ->
  (exists h1 rho1 e1, core h rho e h1 rho1 e1 /\ forall pre post K r, gpeg h1 rho1 e1 pre post K r -> gpeg h' rho' e' pre post K r) \/
  (exists x args h1 rho1 e1 h1' rho1' e1', e = PPath [x] args /\ assoc x rho (Clo h1 rho1 e1) /\ rel h1 rho1 e1 h1' rho1' e1' /\
     forall pre post K r, gpeg h1' rho1' e1' pre post K r -> gpeg h' rho' e' pre post K r) \/
  (exists s l rho1' e1', h = g /\ e = PPath [pr_name s] (Some (PCall l)) /\ macro g s /\ no_param [pr_name s] rho /\ length l = length (pr_args s) /\
     rel g (combine (pr_args s) (map (fun n => Clo g rho (n_expr n)) l)) (n_expr (pr_node s)) g' rho1' e1' /\
     forall pre post K r, gpeg g' rho1' e1' pre post K r -> gpeg h' rho' e' pre post K r).
Proof.
  fix Fx 7. intros h rho e h' rho' e' H. destruct H as [h rho x args h1 rho1 e1 h' rho' e' A H|rho s l rho' e' M Nm N L H|h rho e h' rho' x args h1' rho1' e1' A H|h rho e h' rho' e' C].
  - right. left. exists x, args, h1, rho1, e1, h', rho', e'. split; [reflexivity|]. split; [exact A|]. split; [exact H|]. intros; assumption.
  - right. right. exists s, l, rho', e'. split; [reflexivity|]. split; [reflexivity|]. split; [exact M|]. split; [exact N|]. split; [exact L|]. split; [exact H|]. intros; assumption.
  - destruct (Fx _ _ _ _ _ _ H) as [(h2 & rho2 & e2 & C & P)|[(y & ar & a & b & c & h2 & rho2 & e2 & E & A2 & R & P)|(s & l & rho2 & e2 & E & E' & M & N & L & R & P)]].
    + left. exists h2, rho2, e2. split; [exact C|]. intros pre post K r D. eapply G_param; [exact A|apply P, D].
    + right. left. exists y, ar, a, b, c, h2, rho2, e2. split; [exact E|]. split; [exact A2|]. split; [exact R|]. intros pre post K r D. eapply G_param; [exact A|apply P, D].
    + right. right. exists s, l, rho2, e2. repeat (split; [assumption|]). intros pre post K r D. eapply G_param; [exact A|apply P, D].
  - left. exists h', rho', e'. split; [exact C|]. intros; assumption.
Qed.

Inductive rel_items (h : gmodule) (rho : list (text * closure)) (h' : gmodule) (rho' : list (text * closure)) : list item -> list item -> Prop :=
| Ri_nil : rel_items h rho h' rho' [] []
| Ri_expr e e' l l' : rel h rho e h' rho' e' -> rel_items h rho h' rho' l l' -> rel_items h rho h' rho' (It_expr e :: l) (It_expr e' :: l')
| Ri_trivia t l l' : both h h' -> rel_items h rho h' rho' l l' -> rel_items h rho h' rho' (It_trivia t :: l) (It_trivia t :: l').

Lemma trivia_rel : forall h h' t name r, both h h' -> trivia_name t = Some name -> last_rule h name r ->
  exists r', last_rule h' name r' /\ rel h [] (n_expr (pr_node r)) h' [] (n_expr (pr_node r')).
Proof.
  intros h h' t name r [(-> & ->)|<-] T L.
  - destruct (trivia_there t name r T L) as (r' & L' & Kp). exists r'. split; [exact L'|].
    assert (A : pr_args r = []) by (destruct L as (a & b & _ & Nm & _); eapply kept_trivia; eassumption).
    assert (A' : pr_args r' = []) by (rewrite <- (kept_args _ _ Kp); exact A).
    assert (Q := kept_rel r r' [] [] Kp). rewrite A, A' in Q. apply Q; [reflexivity|constructor].
  - exists r. split; [exact L|]. apply same_rel. constructor.
Qed.
Lemma trivia_rel_back : forall h h' t name r', both h h' -> trivia_name t = Some name -> last_rule h' name r' ->
  exists r, last_rule h name r /\ rel h [] (n_expr (pr_node r)) h' [] (n_expr (pr_node r')).
Proof.
  intros h h' t name r' [(-> & ->)|<-] T L.
  - destruct (trivia_back t name r' T L) as (r & L' & Kp). exists r. split; [exact L'|].
    assert (A : pr_args r = []) by (destruct L' as (a & b & _ & Nm & _); eapply kept_trivia; eassumption).
    assert (A' : pr_args r' = []) by (rewrite <- (kept_args _ _ Kp); exact A).
    assert (Q := kept_rel r r' [] [] Kp). rewrite A, A' in Q. apply Q; [reflexivity|constructor].
  - exists r'. split; [exact L|]. apply same_rel. constructor.
Qed.

Lemma names_rel : forall h h' path r, (h = g /\ h' = g' /\ (forall s, macro g s -> path <> [pr_name s])) \/ h = h' ->
  forall h1, names h path (E_rule h1 r) -> exists h1' r', names h' path (E_rule h1' r') /\ length (pr_args r) = length (pr_args r') /\
    forall cs cs', length cs = length (pr_args r) -> Forall2 rel_clo cs cs' ->
      rel h1 (combine (pr_args r) cs) (n_expr (pr_node r)) h1' (combine (pr_args r') cs') (n_expr (pr_node r')).
Proof.
  intros h h' path r B h1 H. assert (Same : names h' path (E_rule h1 r) -> exists h1' r', names h' path (E_rule h1' r') /\ length (pr_args r) = length (pr_args r') /\
    forall cs cs', length cs = length (pr_args r) -> Forall2 rel_clo cs cs' ->
      rel h1 (combine (pr_args r) cs) (n_expr (pr_node r)) h1' (combine (pr_args r') cs') (n_expr (pr_node r'))).
  { intro J. exists h1, r. split; [exact J|]. split; [reflexivity|]. intros cs cs' _ F. apply same_rel, env_combine, F. }
  destruct B as [(-> & -> & N)|<-]; [|apply Same, H].
  destruct (names_there _ _ H N) as [J|(r0 & r' & E & J & Kp)]; [apply Same, J|]. injection E as -> ->.
  exists g', r'. split; [exact J|]. split; [rewrite (kept_args _ _ Kp); reflexivity|]. intros cs cs' L F. apply kept_rel; assumption.
Qed.
Lemma names_rel_back : forall h h' path r', (h = g /\ h' = g' /\ (forall s, macro g s -> path <> [pr_name s])) \/ h = h' ->
  forall h1', names h' path (E_rule h1' r') -> exists h1 r, names h path (E_rule h1 r) /\ length (pr_args r) = length (pr_args r') /\
    forall cs cs', length cs = length (pr_args r) -> Forall2 rel_clo cs cs' ->
      rel h1 (combine (pr_args r) cs) (n_expr (pr_node r)) h1' (combine (pr_args r') cs') (n_expr (pr_node r')).
Proof.
  intros h h' path r' B h1' H. assert (Same : names h path (E_rule h1' r') -> exists h1 r, names h path (E_rule h1 r) /\ length (pr_args r) = length (pr_args r') /\
    forall cs cs', length cs = length (pr_args r) -> Forall2 rel_clo cs cs' ->
      rel h1 (combine (pr_args r) cs) (n_expr (pr_node r)) h1' (combine (pr_args r') cs') (n_expr (pr_node r'))).
  { intro J. exists h1', r'. split; [exact J|]. split; [reflexivity|]. intros cs cs' _ F. apply same_rel, env_combine, F. }
  destruct B as [(-> & -> & N)|<-]; [|apply Same, H].
  destruct (names_back _ _ H) as [J|(r & r0 & E & J & Kp)]; [apply Same, J|]. injection E as -> ->.
  exists g, r. split; [exact J|]. split; [rewrite (kept_args _ _ Kp); reflexivity|]. intros cs cs' L F. apply kept_rel; assumption.
Qed.
Lemma weaken : forall h h' (P : Prop), (h = g /\ h' = g' /\ P) \/ h = h' -> both h h'.
Proof. intros h h' P [(A & B & _)|E]; [left; split; assumption|right; exact E]. Qed.


Lemma rep_shape : forall e n min max, repetition e n min max -> match e with PRep m | PRepOnce m | PRepRange m _ => m = n | _ => False end.
Proof. intros e n min max [(-> & _)|[(-> & _)|(range & -> & _)]]; reflexivity. Qed.
(** What holds on the right holds on the left. *)
Ltac norep := match goal with Q : forall min max, repetition _ _ _ _ <-> repetition _ _ _ _, X : exists min max, repetition _ _ _ _ |- _ =>
  let min := fresh in let max := fresh in exfalso; destruct X as (min & max & X); first [exact (rep_shape _ _ _ _ X)|apply Q in X; exact (rep_shape _ _ _ _ X)] end.
Ltac at_core R := let C := fresh "C" in let P := fresh "P" in let h1 := fresh "h1" in let rho1 := fresh "rho1" in let e1 := fresh "e1" in
  destruct (peel_left _ _ _ _ _ _ R) as [(h1 & rho1 & e1 & C & P)|(y & ar & h1' & rho1' & e1' & h1 & rho1 & e1 & Ey & Ay & R1 & P)];
  [apply P; clear P; inversion C; subst; try norep|try discriminate Ey].
Theorem rel_back :
  (forall h' rho' e' pre post K r, gpeg h' rho' e' pre post K r -> forall h rho e, rel h rho e h' rho' e' -> gpeg h rho e pre post K r) /\
  (forall h' rho' l' pre post K r, gpeg_items h' rho' l' pre post K r -> forall h rho l, rel_items h rho h' rho' l l' -> gpeg_items h rho l pre post K r) /\
  (forall h' rho' e' t min max i pre post K r, gpeg_rounds h' rho' e' t min max i pre post K r -> forall h rho e, both h h' -> rel h rho e h' rho' e' ->
     gpeg_rounds h rho e t min max i pre post K r) /\
  (forall h' rho' e' t i pre post K r, gpeg_round h' rho' e' t i pre post K r -> forall h rho e, both h h' -> rel h rho e h' rho' e' ->
     gpeg_round h rho e t i pre post K r).
Proof.
  apply gpeg_mutind.
  - intros h' rho' s pre post K r H h rho e R. at_core R. apply G_str, H.
  - intros h' rho' s pre post K r H h rho e R. at_core R. apply G_insens, H.
  - intros h' rho' a b pre post K r H h rho e R. at_core R. apply G_range, H.
  - intros h' rho' x args h2' rho2' e2' pre post K r A H IH h rho e R. at_core R.
    + exfalso. match goal with N : no_param [x] rho' |- _ => eapply N; [reflexivity|exact A] end.
    + injection Ey as <- <-. apply P. assert (Q := assoc_unique _ _ _ A _ Ay). injection Q as -> -> ->. apply IH, R1.
  - intros h' rho' path args l h2' r' pre post K r Np Nm Ca Le H IH h rho e R. at_core R; [|exfalso; injection Ey as -> <-; eapply Np; [reflexivity|exact Ay]].
    match goal with B : _ \/ _ |- _ => destruct (names_rel_back _ _ _ _ B _ Nm) as (h2 & r2 & Nm2 & Le2 & Rb) end.
    match goal with A : rel_args _ _ _ _ _ _ |- _ => destruct (args_call_back _ _ _ _ _ _ _ A Ca) as (l0 & Ca0 & Rn) end.
    assert (L0 : length l0 = length (pr_args r2)) by (rewrite (rel_nodes_length _ _ _ _ _ _ Rn), Le2; exact Le).
    eapply G_rule; [assumption|exact Nm2|exact Ca0|exact L0|]. apply IH, Rb; [rewrite map_length; exact L0|apply rel_nodes_clo, Rn].
  - intros h' rho' path args q pre post K r Np Nm Ar H h rho e R. at_core R; [|exfalso; injection Ey as -> <-; eapply Np; [reflexivity|exact Ay]].
    match goal with B : _ \/ _ |- _ => apply weaken in B; eapply G_builtin; [assumption|apply (builtin_both _ _ _ _ B), Nm| |exact H] end.
    destruct Ar as [->|(-> & U)]; match goal with A : rel_args _ _ _ _ _ _ |- _ => inversion A; subst end; [left; reflexivity|].
    match goal with A : rel_nodes _ _ _ _ _ [] |- _ => inversion A; subst end. right. split; [reflexivity|exact U].
  - intros h' rho' path range a n pre post K r Np Nm Ra Rb T h rho e R. at_core R; [|exfalso; injection Ey as -> <-; eapply Np; [reflexivity|exact Ay]].
    match goal with A : rel_args _ _ _ _ _ _ |- _ => inversion A; subst end.
    match goal with B : _ \/ h1 = _ |- _ => apply weaken in B; eapply G_slice; [assumption|apply (builtin_both _ _ _ _ B), Nm|exact Ra|exact Rb|exact T] end.
  - intros h' rho' path n pre post K m post' K' Np Nm H IH h rho e R. at_core R; [|exfalso; injection Ey as -> <-; eapply Np; [reflexivity|exact Ay]].
    match goal with A : rel_args _ _ _ _ _ _ |- _ => inversion A; subst end. match goal with A : rel_nodes _ _ _ _ _ _ |- _ => inversion A; subst end.
    match goal with A : rel_nodes _ _ _ _ _ [] |- _ => inversion A; subst end.
    match goal with B : _ \/ h1 = _ |- _ => apply weaken in B; eapply G_push_ok; [assumption|apply (builtin_both _ _ _ _ B), Nm|apply IH; assumption] end.
  - intros h' rho' path n pre post K Np Nm H IH h rho e R. at_core R; [|exfalso; injection Ey as -> <-; eapply Np; [reflexivity|exact Ay]].
    match goal with A : rel_args _ _ _ _ _ _ |- _ => inversion A; subst end. match goal with A : rel_nodes _ _ _ _ _ _ |- _ => inversion A; subst end.
    match goal with A : rel_nodes _ _ _ _ _ [] |- _ => inversion A; subst end.
    match goal with B : _ \/ h1 = _ |- _ => apply weaken in B; eapply G_push_fail; [assumption|apply (builtin_both _ _ _ _ B), Nm|apply IH; assumption] end.
  - intros h' rho' n pre post K pre' post' K' H IH h rho e R. at_core R. eapply G_positive_ok, IH. assumption.
  - intros h' rho' n pre post K H IH h rho e R. at_core R. eapply G_positive_fail, IH. assumption.
  - intros h' rho' n pre post K H IH h rho e R. at_core R. eapply G_negative_ok, IH. assumption.
  - intros h' rho' n pre post K pre' post' K' H IH h rho e R. at_core R. eapply G_negative_fail, IH. assumption.
  - intros h' rho' l r t pre post K res H IH h rho e R. at_core R. apply G_seq, IH. repeat (constructor; try assumption).
  - intros h' rho' l r pre post K pre' post' K' H IH h rho e R. at_core R. apply G_choice_left, IH. assumption.
  - intros h' rho' l r pre post K res H IH H2 IH2 h rho e R. at_core R. apply G_choice_right; [apply IH|apply IH2]; assumption.
  - intros h' rho' n pre post K pre' post' K' H IH h rho e R. at_core R. apply G_opt_some, IH. assumption.
  - intros h' rho' n pre post K H IH h rho e R. at_core R. apply G_opt_none, IH. assumption.
  - intros h' rho' e' n min max t pre post K r Rp Rt H IH h rho e R. assert (Sh := rep_shape _ _ _ _ Rp).
    destruct (peel_left _ _ _ _ _ _ R) as [(h1 & rho1 & e1 & C & P)|(y & ar & h1' & rho1' & e1' & h1 & rho1 & e1 & Ey & Ay & R1 & P)]; [apply P|rewrite Ey in Sh; contradiction].
    destruct C as [| | | | | | | | |h2 rho2 e2 n2 h' rho' e' n' B Q X Qt Rn|]; try contradiction.
    assert (En : n' = n) by (destruct X as (mi & ma & X); apply Q, rep_shape in X; destruct e'; try contradiction; congruence).
    subst n'. eapply G_repeat; [apply Q, Rp| |].
    + apply Qt, Rt.
    + apply IH; assumption.
  - intros h' rho' n t pre post K r H IH h rho e R. at_core R. apply G_separated, IH. assumption.
  - intros h' rho' pre post K h rho l R. inversion R; subst. constructor.
  - intros h' rho' e' l' pre post K pre' post' K' r H IH H2 IH2 h rho l R. inversion R; subst. eapply GI_expr; [apply IH|apply IH2]; assumption.
  - intros h' rho' e' l' pre post K H IH h rho l R. inversion R; subst. apply GI_expr_fail, IH. assumption.
  - intros h' rho' l' pre post K r H IH h rho l R. inversion R; subst. apply GI_none, IH. assumption.
  - intros h' rho' t name r' l' pre post K pre' post' K' r T L H IH H2 IH2 h rho l R. inversion R; subst.
    match goal with B : both _ _ |- _ => destruct (trivia_rel_back _ _ _ _ _ B T L) as (r0 & L0 & Rt) end.
    eapply GI_trivia; [exact T|exact L0|apply IH, Rt|apply IH2; assumption].
  - intros h' rho' t name r' l' pre post K T L H IH h rho l R. inversion R; subst.
    match goal with B : both _ _ |- _ => destruct (trivia_rel_back _ _ _ _ _ B T L) as (r0 & L0 & Rt) end.
    eapply GI_trivia_fail; [exact T|exact L0|apply IH, Rt].
  - intros h' rho' e' t min max i pre post K L h rho e B R. apply GR_max, L.
  - intros h' rho' e' t min max i pre post K pre' post' K' r L H IH H2 IH2 h rho e B R. eapply GR_round; [exact L|apply IH; assumption|apply IH2; assumption].
  - intros h' rho' e' t min max i pre post K L L' H IH h rho e B R. apply GR_stop; [exact L|exact L'|]. apply IH; assumption.
  - intros h' rho' e' t min max i pre post K L L' H IH h rho e B R. apply GR_fail; [exact L|exact L'|]. apply IH; assumption.
  - intros h' rho' e' t pre post K r H IH h rho e B R. apply GR_first, IH. repeat (constructor; try assumption).
  - intros h' rho' e' t i pre post K r L H IH h rho e B R. apply GR_later; [exact L|]. apply IH. repeat (constructor; try assumption).
Qed.

Ltac at_core' R := let C := fresh "C" in let P := fresh "P" in
  destruct (peel_right _ _ _ _ _ _ R) as [(h1 & rho1 & e1 & C & P)|[(y & ar & h1 & rho1 & e1 & h1' & rho1' & e1' & Ey & Ay & R1 & P)|(s1 & l1 & rho1' & e1' & Eh & Es & Ms & Ns & Ls & R1 & P)]];
  [apply P; clear P; inversion C; subst; try norep|try discriminate Ey|try discriminate Es].
(** What holds on the left holds on the right. *)
Theorem rel_there :
  (forall h rho e pre post K r, gpeg h rho e pre post K r -> forall h' rho' e', rel h rho e h' rho' e' -> gpeg h' rho' e' pre post K r) /\
  (forall h rho l pre post K r, gpeg_items h rho l pre post K r -> forall h' rho' l', rel_items h rho h' rho' l l' -> gpeg_items h' rho' l' pre post K r) /\
  (forall h rho e t min max i pre post K r, gpeg_rounds h rho e t min max i pre post K r -> forall h' rho' e', both h h' -> rel h rho e h' rho' e' ->
     gpeg_rounds h' rho' e' t min max i pre post K r) /\
  (forall h rho e t i pre post K r, gpeg_round h rho e t i pre post K r -> forall h' rho' e', both h h' -> rel h rho e h' rho' e' ->
     gpeg_round h' rho' e' t i pre post K r).
Proof.
  apply gpeg_mutind.
  - intros h rho s pre post K r H h' rho' e' R. at_core' R. apply G_str, H.
  - intros h rho s pre post K r H h' rho' e' R. at_core' R. apply G_insens, H.
  - intros h rho a b pre post K r H h' rho' e' R. at_core' R. apply G_range, H.
  - intros h rho x args h2 rho2 e2 pre post K r A H IH h' rho' e' R. at_core' R.
    + exfalso. match goal with N : no_param [x] rho |- _ => eapply N; [reflexivity|exact A] end.
    + injection Ey as <- <-. apply P. assert (Q := assoc_unique _ _ _ A _ Ay). injection Q as -> -> ->. apply IH, R1.
    + injection Es as -> ->. exfalso. eapply Ns; [reflexivity|exact A].
  - intros h rho path args l h2 r2 pre post K r Np Nm Ca Le H IH h' rho' e' R. at_core' R; [|exfalso; injection Ey as -> <-; eapply Np; [reflexivity|exact Ay]|].
    + match goal with B : _ \/ _ |- _ => destruct (names_rel _ _ _ _ B _ Nm) as (h2' & r2' & Nm2 & Le2 & Rb) end.
      match goal with A : rel_args _ _ _ _ _ _ |- _ => destruct (args_call _ _ _ _ _ _ _ A Ca) as (l0 & Ca0 & Rn) end.
      assert (L0 : length l0 = length (pr_args r2')) by (rewrite <- (rel_nodes_length _ _ _ _ _ _ Rn), <- Le2; exact Le).
      eapply G_rule; [assumption|exact Nm2|exact Ca0|exact L0|]. apply IH, Rb; [rewrite map_length; exact Le|apply rel_nodes_clo, Rn].
    + subst h. injection Es as -> ->. apply (names_macro _ _ Ms) in Nm. injection Nm as -> ->. destruct Ca as [Ca|(Ca & _)]; [|discriminate Ca]. injection Ca as ->.
      apply P, IH, R1.
  - intros h rho path args q pre post K r Np Nm Ar H h' rho' e' R. at_core' R; [|exfalso; injection Ey as -> <-; eapply Np; [reflexivity|exact Ay]|].
    + match goal with B : _ \/ _ |- _ => apply weaken in B; eapply G_builtin; [assumption|apply (builtin_both _ _ _ _ B), Nm| |exact H] end.
      destruct Ar as [->|(-> & U)]; match goal with A : rel_args _ _ _ _ _ _ |- _ => inversion A; subst end; [left; reflexivity|].
      match goal with A : rel_nodes _ _ [] _ _ _ |- _ => inversion A; subst end. right. split; [reflexivity|exact U].
    + subst h. injection Es as -> ->. apply (names_macro _ _ Ms) in Nm. discriminate Nm.
  - intros h rho path range a n pre post K r Np Nm Ra Rb T h' rho' e' R. at_core' R; [|exfalso; injection Ey as -> <-; eapply Np; [reflexivity|exact Ay]].
    match goal with A : rel_args _ _ _ _ _ _ |- _ => inversion A; subst end.
    match goal with B : _ \/ h = _ |- _ => apply weaken in B; eapply G_slice; [assumption|apply (builtin_both _ _ _ _ B), Nm|exact Ra|exact Rb|exact T] end.
  - intros h rho path n pre post K m post' K' Np Nm H IH h' rho' e' R. at_core' R; [|exfalso; injection Ey as -> <-; eapply Np; [reflexivity|exact Ay]|].
    + match goal with A : rel_args _ _ _ _ _ _ |- _ => inversion A; subst end. match goal with A : rel_nodes _ _ _ _ _ _ |- _ => inversion A; subst end.
      match goal with A : rel_nodes _ _ [] _ _ _ |- _ => inversion A; subst end.
      match goal with B : _ \/ h = _ |- _ => apply weaken in B; eapply G_push_ok; [assumption|apply (builtin_both _ _ _ _ B), Nm|apply IH; assumption] end.
    + subst h. injection Es as -> _. apply (names_macro _ _ Ms) in Nm. discriminate Nm.
  - intros h rho path n pre post K Np Nm H IH h' rho' e' R. at_core' R; [|exfalso; injection Ey as -> <-; eapply Np; [reflexivity|exact Ay]|].
    + match goal with A : rel_args _ _ _ _ _ _ |- _ => inversion A; subst end. match goal with A : rel_nodes _ _ _ _ _ _ |- _ => inversion A; subst end.
      match goal with A : rel_nodes _ _ [] _ _ _ |- _ => inversion A; subst end.
      match goal with B : _ \/ h = _ |- _ => apply weaken in B; eapply G_push_fail; [assumption|apply (builtin_both _ _ _ _ B), Nm|apply IH; assumption] end.
    + subst h. injection Es as -> _. apply (names_macro _ _ Ms) in Nm. discriminate Nm.
  - intros h rho n pre post K pre' post' K' H IH h' rho' e' R. at_core' R. eapply G_positive_ok, IH. assumption.
  - intros h rho n pre post K H IH h' rho' e' R. at_core' R. eapply G_positive_fail, IH. assumption.
  - intros h rho n pre post K H IH h' rho' e' R. at_core' R. eapply G_negative_ok, IH. assumption.
  - intros h rho n pre post K pre' post' K' H IH h' rho' e' R. at_core' R. eapply G_negative_fail, IH. assumption.
  - intros h rho l r t pre post K res H IH h' rho' e' R. at_core' R. apply G_seq, IH. repeat (constructor; try assumption).
  - intros h rho l r pre post K pre' post' K' H IH h' rho' e' R. at_core' R. apply G_choice_left, IH. assumption.
  - intros h rho l r pre post K res H IH H2 IH2 h' rho' e' R. at_core' R. apply G_choice_right; [apply IH|apply IH2]; assumption.
  - intros h rho n pre post K pre' post' K' H IH h' rho' e' R. at_core' R. apply G_opt_some, IH. assumption.
  - intros h rho n pre post K H IH h' rho' e' R. at_core' R. apply G_opt_none, IH. assumption.
  - intros h rho e n min max t pre post K r Rp Rt H IH h' rho' e' R. assert (Sh := rep_shape _ _ _ _ Rp).
    destruct (peel_right _ _ _ _ _ _ R) as [(h1 & rho1 & e1 & C & P)|[(y & ar & h1 & rho1 & e1 & h1' & rho1' & e1' & Ey & Ay & R1 & P)|(s1 & l1 & rho1' & e1' & Eh & Es & Ms & Ns & Ls & R1 & P)]];
      [apply P|rewrite Ey in Sh; contradiction|rewrite Es in Sh; contradiction].
    destruct C as [| | | | | | | | |h rho e n0 h2 rho2 e2 n2 B Q X Qt Rn|]; try contradiction.
    assert (En : n0 = n) by (destruct X as (mi & ma & X); apply rep_shape in X; destruct e; try contradiction; congruence).
    subst n0. eapply G_repeat; [apply Q, Rp| |].
    + apply Qt, Rt.
    + apply IH; assumption.
  - intros h rho n t pre post K r H IH h' rho' e' R. at_core' R. apply G_separated, IH. assumption.
  - intros h rho pre post K h' rho' l' R. inversion R; subst. constructor.
  - intros h rho e l pre post K pre' post' K' r H IH H2 IH2 h' rho' l' R. inversion R; subst. eapply GI_expr; [apply IH|apply IH2]; assumption.
  - intros h rho e l pre post K H IH h' rho' l' R. inversion R; subst. apply GI_expr_fail, IH. assumption.
  - intros h rho l pre post K r H IH h' rho' l' R. inversion R; subst. apply GI_none, IH. assumption.
  - intros h rho t name r2 l pre post K pre' post' K' r T L H IH H2 IH2 h' rho' l' R. inversion R; subst.
    match goal with B : both _ _ |- _ => destruct (trivia_rel _ _ _ _ _ B T L) as (r0 & L0 & Rt) end.
    eapply GI_trivia; [exact T|exact L0|apply IH, Rt|apply IH2; assumption].
  - intros h rho t name r2 l pre post K T L H IH h' rho' l' R. inversion R; subst.
    match goal with B : both _ _ |- _ => destruct (trivia_rel _ _ _ _ _ B T L) as (r0 & L0 & Rt) end.
    eapply GI_trivia_fail; [exact T|exact L0|apply IH, Rt].
  - intros h rho e t min max i pre post K L h' rho' e' B R. apply GR_max, L.
  - intros h rho e t min max i pre post K pre' post' K' r L H IH H2 IH2 h' rho' e' B R. eapply GR_round; [exact L|apply IH; assumption|apply IH2; assumption].
  - intros h rho e t min max i pre post K L L' H IH h' rho' e' B R. apply GR_stop; [exact L|exact L'|]. apply IH; assumption.
  - intros h rho e t min max i pre post K L L' H IH h' rho' e' B R. apply GR_fail; [exact L|exact L'|]. apply IH; assumption.
  - intros h rho e t pre post K r H IH h' rho' e' B R. apply GR_first, IH. repeat (constructor; try assumption).
  - intros h rho e t i pre post K r L H IH h' rho' e' B R. apply GR_later; [exact L|]. apply IH. repeat (constructor; try assumption).
Qed.
Theorem rel_same : forall h rho e h' rho' e', rel h rho e h' rho' e' -> forall pre post K r, gpeg h rho e pre post K r <-> gpeg h' rho' e' pre post K r.
Proof.
  intros h rho e h' rho' e' R pre post K r. split; intro H; [eapply (proj1 rel_there); eassumption|eapply (proj1 rel_back); eassumption].
Qed.
End Same.
