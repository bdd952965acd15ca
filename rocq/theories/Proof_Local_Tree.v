(** Grammars that agree on what a rule refers to give it the same trees and the same attempts. *)
From Coq Require Import String List NArith ZArith Arith Bool Lia.
From Verif Require Import Model_Text Model_Message Model_Meta Model_Import Model_Tracker Model_Node Model_Pairs Proof_Grammar_Tree Proof_Grammar_Tree_Inline Proof_Grammar_Tree_Det Proof_Det Proof_Laws Proof_Laws_Tree Proof_Local
  Spec_Text Spec_Peg Spec_Run Spec_Grammar_Peg Spec_Occur Spec_Generator Spec_Inline Spec_Grammar_Tree Spec_Grammar_Trace Spec_Local.
Import ListNotations.
Open Scope list_scope.

Section Local.
Variable unicode : list text.
Variable property : N -> char -> bool.
Variable P : text -> Prop.
Variables g g' : gmodule.
Hypothesis Agree : agree P g g'.
Hypothesis Closed : closed_under P g.
Hypothesis Plain : forall r, In r (g_rules g) -> P (pr_name r) -> is_trivia_rule r -> pr_args r = [].
Notation G := (gpeg unicode property).
Notation GR := (gpeg_round unicode property).
Notation T := (gtree unicode property (open_own g)).
Notation TI := (gtree_items unicode property (open_own g)).
Notation TRs := (gtree_rounds unicode property (open_own g)).
Notation TR := (gtree_round unicode property (open_own g)).
Notation T' := (gtree unicode property (open_own g')).
Notation TI' := (gtree_items unicode property (open_own g')).
Notation TRs' := (gtree_rounds unicode property (open_own g')).
Notation TR' := (gtree_round unicode property (open_own g')).
Notation A := (gtry unicode property (open_own g)).
Notation AI := (gtry_items unicode property (open_own g)).
Notation ARs := (gtry_rounds unicode property (open_own g)).
Notation AR := (gtry_round unicode property (open_own g)).
Notation A' := (gtry unicode property (open_own g')).
Notation AI' := (gtry_items unicode property (open_own g')).
Notation ARs' := (gtry_rounds unicode property (open_own g')).
Notation AR' := (gtry_round unicode property (open_own g')).

(** Modules that both import, and the two themselves. *)
Definition below (m : gmodule) : Prop := weight m < weight g /\ weight m < weight g'.
Definition like_mod (m m' : gmodule) (params : list text) (e : parse_expr) : Prop :=
  m = m' /\ below m \/ m = g /\ m' = g' /\ refers P params e.
Inductive like_clo : closure -> closure -> Prop :=
| LC m m' rho rho' e : like_mod m m' (map fst rho) e -> like_env rho rho' -> like_clo (Clo m rho e) (Clo m' rho' e)
with like_env : list (text * closure) -> list (text * closure) -> Prop :=
| LE_nil : like_env [] []
| LE_cons x c c' rho rho' : like_clo c c' -> like_env rho rho' -> like_env ((x, c) :: rho) ((x, c') :: rho').
Definition like_item (m m' : gmodule) (params : list text) (i : item) : Prop :=
  match i with
  | It_expr e => like_mod m m' params e
  | It_trivia t => m = m' /\ below m \/ m = g /\ m' = g' /\ forall name, trivia_name t = Some name -> P name
  end.
Scheme like_clo_mut := Induction for like_clo Sort Prop with like_env_mut := Induction for like_env Sort Prop.

Notation same_mod := (Proof_Local.same_mod P g g').
Notation same_clo := (Proof_Local.same_clo P g g').
Notation same_env := (Proof_Local.same_env P g g').
Notation same_item := (Proof_Local.same_item P g g').
Lemma like_same_mod : forall m m' ps e, like_mod m m' ps e -> same_mod m m' ps e.
Proof. intros m m' ps e [(E & _)|H]; [left; exact E|right; exact H]. Qed.
Lemma like_same_item : forall m m' ps i, like_item m m' ps i -> same_item m m' ps i.
Proof. intros m m' ps [e|t] H; [exact (like_same_mod _ _ _ _ H)|]. destruct H as [(E & _)|H]; [left; exact E|right; exact H]. Qed.
Lemma like_same_env : forall rho rho', like_env rho rho' -> same_env rho rho'.
Proof.
  intros rho rho' H. apply (like_env_mut (fun c c' _ => same_clo c c') (fun rho rho' _ => same_env rho rho')); [| | |exact H].
  - intros m m' r r' e M _ E. constructor; [apply like_same_mod, M|exact E].
  - constructor.
  - intros x c c' r r' _ C _ E. constructor; assumption.
Qed.

Lemma like_operand : forall m m' ps e e', like_mod m m' ps e -> operand_of e' e -> like_mod m m' ps e'.
Proof.
  intros m m' ps e e' [E|(E & E' & R)] O; [left; exact E|]. right. split; [exact E|]. split; [exact E'|].
  eapply refers_part; [exact R|apply part_operand, O].
Qed.
Lemma like_assoc : forall rho rho', like_env rho rho' -> forall x c, assoc x rho c -> exists c', assoc x rho' c' /\ like_clo c c'.
Proof.
  intros rho rho' H. induction H as [|y c c' rho rho' Sc H IH]; intros x d Q; inversion Q; subst.
  - exists c'. split; [constructor|exact Sc].
  - destruct (IH _ _ ltac:(eassumption)) as (d' & A0 & S). exists d'. split; [constructor; assumption|exact S].
Qed.
Lemma like_none : forall rho rho' path, like_env rho rho' -> (forall x c, path = [x] -> ~ assoc x rho c) -> forall x c, path = [x] -> ~ assoc x rho' c.
Proof. intros rho rho' path H. apply (env_none P g g'), like_same_env, H. Qed.
Lemma like_call : forall m m' rho rho' ps l, like_env rho rho' -> (forall n, In n l -> like_mod m m' (map fst rho) (n_expr n)) ->
  like_env (combine ps (map (fun n => Clo m rho (n_expr n)) l)) (combine ps (map (fun n => Clo m' rho' (n_expr n)) l)).
Proof.
  intros m m' rho rho' ps l S H. revert ps. induction l as [|n l IH]; intros [|p ps]; try constructor.
  - constructor; [apply H; left; reflexivity|exact S].
  - apply IH. intros k K. apply H. right. exact K.
Qed.
Lemma below_own : forall m path x, below m -> own_name unicode m path x -> forall h r, x = E_rule h r -> below h.
Proof.
  intros m path x B N. induction N as [m r I Nt|m alias p path I B'|m alias m' rest x I N IH]; intros h q E.
  - injection E as <- _. exact B.
  - discriminate E.
  - refine (IH _ h q E). apply weight_import in I. unfold below in *. lia.
Qed.
Lemma below_names : forall m path h r, below m -> names unicode m path (E_rule h r) -> below h.
Proof. intros m path h r B N. inversion N; subst. eapply below_own; [exact B|eassumption|reflexivity]. Qed.
Lemma below_other : forall m, below m -> m <> g /\ m <> g'.
Proof. intros m (B & B'). split; intros ->; lia. Qed.

(** Rules that are the same in both. *)
Notation kept := (Spec_Local.kept g g').
Lemma rule_like : forall m m' (rho : list (text * closure)) path args h r, like_mod m m' (map fst rho) (PPath path args) -> (forall x c, path = [x] -> ~ assoc x rho c) ->
  names unicode m path (E_rule h r) ->
  exists h', names unicode m' path (E_rule h' r) /\ like_mod h h' (pr_args r) (n_expr (pr_node r)) /\ kept (h, r) (h', r) /\ (open_own g h r <-> open_own g' h' r).
Proof.
  intros m m' rho path args h r [(<- & B)|(-> & -> & R & _)] N H.
  - assert (Bh := below_names _ _ _ _ B H). destruct (below_other _ Bh). exists h. split; [exact H|]. split; [left; auto|]. split; [split; [left; cbn; auto|reflexivity]|]. unfold open_own. tauto.
  - inversion H as [|p x O Q]; subst. destruct path as [|y path]; [inversion O|]. assert (Py : P y).
    { destruct (R y path args (Part_self _)) as [Py|(-> & I)]; [exact Py|]. destruct (assoc_in _ _ _ I) as (c & Q'). destruct (N y c eq_refl Q'). }
    destruct Agree as (Ru & _ & Im). inversion O as [? ? I Nt|? ? ? ? I|? ? h1 ? ? I N1]; subst.
    + assert (I' : In r (g_rules g')) by (apply Ru; assumption). exists g'. split; [apply N_own; [apply O_rule; assumption|assumption]|]. split; [right; split; [reflexivity|split; [reflexivity|apply Closed; assumption]]|].
      split; [split; [right; cbn; auto 10|reflexivity]|]. unfold open_own, macro. tauto.
    + assert (I' := proj1 (Im (File y h1) Py) I). assert (B : below h) by (eapply below_own; [|exact N1|reflexivity]; split; eapply weight_import; eassumption).
      destruct (below_other _ B). exists h. split; [apply N_own; [eapply O_file; eassumption|assumption]|]. split; [left; auto|]. split; [split; [left; cbn; auto|reflexivity]|]. unfold open_own. tauto.
Qed.
Lemma builtin_like : forall m m' (rho : list (text * closure)) path args q, like_mod m m' (map fst rho) (PPath path args) -> (forall x c, path = [x] -> ~ assoc x rho c) ->
  names unicode m path (E_builtin q) -> names unicode m' path (E_builtin q).
Proof. intros m m' rho path args q M N H. eapply (names_builtin unicode P g g' Agree Closed); [apply like_same_mod, M|exact N|exact H]. Qed.
Lemma like_trivia : forall m m' ps e t, like_mod m m' ps e -> asks e t -> like_item m m' ps (It_trivia t).
Proof. intros m m' ps e t [E|(E & E' & _ & R)] Q; [left; exact E|]. right. split; [exact E|]. split; [exact E'|]. intros name N. eapply R; eassumption. Qed.
Lemma trivia_like : forall m m' ps t name r, like_item m m' ps (It_trivia t) -> trivia_name t = Some name -> last_rule m name r ->
  last_rule m' name r /\ like_mod m m' [] (n_expr (pr_node r)).
Proof.
  intros m m' ps t name r [(<- & B)|H] N L; [split; [exact L|left; auto]|].
  destruct (trivia_same P g g' Agree Closed Plain m m' ps t name r (or_intror H) N L) as (L' & S). split; [exact L'|]. destruct H as (E & E' & Q). destruct S as [S|S]; [|right; exact S].
  right. split; [exact E|]. split; [exact E'|]. subst. specialize (Q _ N). destruct L as (a & b & E & <- & _).
  assert (I : In r (g_rules g')) by (rewrite E; apply in_or_app; right; left; reflexivity). assert (C := Closed r I Q). rewrite (Plain r I Q) in C; [exact C|].
  destruct t; cbn in N; [discriminate| |]; injection N as N; [left|right]; symmetry; exact N.
Qed.
Lemma none_like : forall m m' ps e, like_mod m m' ps e -> like_item m m' ps (It_trivia TriviaNone).
Proof. intros m m' ps e [E|(E & E' & _)]; [left; exact E|]. right. split; [exact E|]. split; [exact E'|]. intros name N. discriminate N. Qed.
Lemma rounds_like : forall m m' ps e t, like_mod m m' ps e -> round_trivia e t -> like_item m m' ps (It_trivia t).
Proof.
  intros m m' ps e t M [(n & ->)|(_ & ->)]; [|eapply none_like, M]. eapply like_trivia; [exact M|]. right. exists n. apply Part_self.
Qed.
Lemma lG : forall m rho e pre post K r, G m rho e pre post K r -> forall m' rho', like_mod m m' (map fst rho) e -> like_env rho rho' -> G m' rho' e pre post K r.
Proof. intros m rho e pre post K r H m' rho' M E. eapply (proj1 (same_meaning unicode property P g g' Agree Closed Plain)); [exact H|apply like_same_mod, M|apply like_same_env, E]. Qed.
Lemma lGR : forall m rho e t i pre post K r, GR m rho e t i pre post K r -> forall m' rho', like_mod m m' (map fst rho) e -> like_item m m' (map fst rho) (It_trivia t) -> like_env rho rho' ->
  GR m' rho' e t i pre post K r.
Proof.
  intros m rho e t i pre post K r H m' rho' M Q E. eapply (proj2 (proj2 (proj2 (same_meaning unicode property P g g' Agree Closed Plain)))); [exact H|apply like_same_mod, M|apply like_same_item, Q|apply like_same_env, E].
Qed.
Lemma args_like : forall m m' (ps : list text) path args l, like_mod m m' ps (PPath path args) -> call_arguments args l -> forall n, In n l -> like_mod m m' ps (n_expr n).
Proof. intros m m' ps path args l M [->|(-> & ->)] n I; [|destruct I]. eapply like_operand; [exact M|]. apply Op_arg, I. Qed.
Lemma combined : forall (ps : list text) (f : parse_node -> closure) l, length l = length ps -> map fst (combine ps (map f l)) = ps.
Proof. intros ps f l L. apply combine_names. rewrite map_length. exact L. Qed.

Notation M := (matched_all kept).
Theorem same_trees :
  (forall m rho e pre post K a b c ps, T m rho e pre post K a b c ps ->
     forall m' rho', like_mod m m' (map fst rho) e -> like_env rho rho' -> exists qs, T' m' rho' e pre post K a b c qs /\ M ps qs) /\
  (forall m rho l pre post K a b c ps, TI m rho l pre post K a b c ps ->
     forall m' rho', Forall (like_item m m' (map fst rho)) l -> like_env rho rho' -> exists qs, TI' m' rho' l pre post K a b c qs /\ M ps qs) /\
  (forall m rho e t min max i pre post K a b c ps, TRs m rho e t min max i pre post K a b c ps ->
     forall m' rho', like_mod m m' (map fst rho) e -> like_item m m' (map fst rho) (It_trivia t) -> like_env rho rho' ->
     exists qs, TRs' m' rho' e t min max i pre post K a b c qs /\ M ps qs) /\
  (forall m rho e t i pre post K a b c ps, TR m rho e t i pre post K a b c ps ->
     forall m' rho', like_mod m m' (map fst rho) e -> like_item m m' (map fst rho) (It_trivia t) -> like_env rho rho' ->
     exists qs, TR' m' rho' e t i pre post K a b c qs /\ M ps qs).
Proof.
  apply (gtree_mutind unicode property (open_own g)
    (fun m rho e pre post K a b c ps _ => forall m' rho', like_mod m m' (map fst rho) e -> like_env rho rho' -> exists qs, T' m' rho' e pre post K a b c qs /\ M ps qs)
    (fun m rho l pre post K a b c ps _ => forall m' rho', Forall (like_item m m' (map fst rho)) l -> like_env rho rho' -> exists qs, TI' m' rho' l pre post K a b c qs /\ M ps qs)
    (fun m rho e t min max i pre post K a b c ps _ => forall m' rho', like_mod m m' (map fst rho) e -> like_item m m' (map fst rho) (It_trivia t) -> like_env rho rho' ->
       exists qs, TRs' m' rho' e t min max i pre post K a b c qs /\ M ps qs)
    (fun m rho e t i pre post K a b c ps _ => forall m' rho', like_mod m m' (map fst rho) e -> like_item m m' (map fst rho) (It_trivia t) -> like_env rho rho' ->
       exists qs, TR' m' rho' e t i pre post K a b c qs /\ M ps qs)).
  - (* text *) intros g0 rho e pre post K a b c Q H m' rho' Lm Le. exists []. split; [apply GT_text; [exact Q|eapply lG; eassumption]|constructor].
  - (* built-in *) intros g0 rho path args q pre post K a b c Np N Nq H m' rho' Lm Le. exists []. split; [|constructor].
    eapply GT_builtin; [eapply like_none; eassumption|eapply builtin_like; eassumption|exact Nq|eapply lG; eassumption].
  - (* predicate *) intros g0 rho e pre post K a b c Q H m' rho' Lm Le. exists []. split; [apply GT_predicate; [exact Q|eapply lG; eassumption]|constructor].
  - (* parameter *) intros g0 rho x args g1 rho1 e pre post K a b c ps As _ IH m' rho' Lm Le. destruct (like_assoc _ _ Le _ _ As) as (c' & As' & Lc). inversion Lc; subst.
    destruct (IH _ _ ltac:(eassumption) ltac:(eassumption)) as (qs & X & Y). exists qs. split; [eapply GT_param; eassumption|exact Y].
  - (* rule *) intros g0 rho path args l g1 r pre post K a b c ps Np N Ca L S _ IH m' rho' Lm Le. destruct (rule_like _ _ _ _ _ _ _ Lm Np N) as (h' & N' & Lh & Ke & _).
    destruct (IH h' (combine (pr_args r) (map (fun n => Clo m' rho' (n_expr n)) l))) as (qs & X & Y); [rewrite combined by exact L; exact Lh|apply like_call; [exact Le|eapply args_like; eassumption]|].
    eexists. split; [eapply GT_rule; [eapply like_none; eassumption|exact N'|exact Ca|exact L|exact S|exact X]|]. constructor; [constructor; [exact Ke|exact Y]|constructor].
  - (* silent *) intros g0 rho path args l g1 r pre post K a b c Np N Ca L S No H m' rho' Lm Le. destruct (rule_like _ _ _ _ _ _ _ Lm Np N) as (h' & N' & Lh & _ & Op).
    exists []. split; [|constructor]. eapply GT_silent; [eapply like_none; eassumption|exact N'|exact Ca|exact L|exact S|tauto|].
    eapply lG; [exact H|rewrite combined by exact L; exact Lh|apply like_call; [exact Le|eapply args_like; eassumption]].
  - (* open *) intros g0 rho path args l g1 r pre post K a b c ps Np N Ca L S Op _ IH m' rho' Lm Le. destruct (rule_like _ _ _ _ _ _ _ Lm Np N) as (h' & N' & Lh & _ & Oq).
    destruct (IH h' (combine (pr_args r) (map (fun n => Clo m' rho' (n_expr n)) l))) as (qs & X & Y); [rewrite combined by exact L; exact Lh|apply like_call; [exact Le|eapply args_like; eassumption]|].
    exists qs. split; [|exact Y]. eapply GT_open; [eapply like_none; eassumption|exact N'|exact Ca|exact L|exact S|tauto|exact X].
  - (* push *) intros g0 rho path n pre post K x post' K' ps Np N _ IH m' rho' Lm Le.
    destruct (IH m' rho') as (qs & X & Y); [eapply like_operand; [exact Lm|]; apply Op_arg; left; reflexivity|exact Le|]. exists qs. split; [|exact Y].
    eapply GT_push; [eapply like_none; eassumption|eapply builtin_like; eassumption|exact X].
  - (* sequence *) intros g0 rho l r t pre post K a b c ps _ IH m' rho' Lm Le. destruct (IH m' rho') as (qs & X & Y); [|exact Le|exists qs; split; [apply GT_seq, X|exact Y]].
    apply Forall_cons; [|apply Forall_cons; [|apply Forall_cons; [|apply Forall_nil]]].
    + eapply like_operand; [exact Lm|constructor].
    + eapply like_trivia; [exact Lm|]. left. exists l, r. apply Part_self.
    + eapply like_operand; [exact Lm|constructor].
  - intros g0 rho l r pre post K a b c ps _ IH m' rho' Lm Le. destruct (IH m' rho') as (qs & X & Y); [eapply like_operand; [exact Lm|constructor]|exact Le|]. exists qs. split; [apply GT_left, X|exact Y].
  - intros g0 rho l r pre post K a b c ps H _ IH m' rho' Lm Le. destruct (IH m' rho') as (qs & X & Y); [eapply like_operand; [exact Lm|constructor]|exact Le|]. exists qs.
    split; [apply GT_right; [eapply lG; [exact H|eapply like_operand; [exact Lm|constructor]|exact Le]|exact X]|exact Y].
  - intros g0 rho n pre post K a b c ps _ IH m' rho' Lm Le. destruct (IH m' rho') as (qs & X & Y); [eapply like_operand; [exact Lm|constructor]|exact Le|]. exists qs. split; [apply GT_some, X|exact Y].
  - intros g0 rho n pre post K H m' rho' Lm Le. exists []. split; [|constructor]. apply GT_none. eapply lG; [exact H|eapply like_operand; [exact Lm|constructor]|exact Le].
  - (* repetition *) intros g0 rho e n min max t pre post K a b c ps Rp Rt _ IH m' rho' Lm Le.
    assert (Lo : like_mod g0 m' (map fst rho) (n_expr n)) by (eapply like_operand; [exact Lm|eapply rep_operand; exact Rp]).
    destruct (IH m' rho' Lo) as (qs & X & Y); [eapply rounds_like; eassumption|exact Le|]. exists qs. split; [eapply GT_repeat; eassumption|exact Y].
  - intros g0 rho n t pre post K a b c ps _ IH m' rho' Lm Le. destruct (IH m' rho') as (qs & X & Y); [eapply like_operand; [exact Lm|constructor]|exact Le|]. exists qs. split; [apply GT_separated, X|exact Y].
  - intros g0 rho pre post K m' rho' _ _. exists []. split; constructor.
  - intros g0 rho e l pre post K p1 q1 K1 ps a b c qs _ IH _ IH' m' rho' F Le. inversion F as [|? ? F1 F2]; subst. destruct (IH _ _ F1 Le) as (ps' & X & Y). destruct (IH' _ _ F2 Le) as (qs' & X' & Y').
    exists (ps' ++ qs'). split; [eapply GTI_expr; eassumption|apply matched_app; assumption].
  - intros g0 rho l pre post K a b c qs _ IH m' rho' F Le. inversion F as [|? ? F1 F2]; subst. destruct (IH _ _ F2 Le) as (qs' & X & Y). exists qs'. split; [apply GTI_none, X|exact Y].
  - intros g0 rho t name r l pre post K p1 q1 K1 a b c qs Tn L H _ IH m' rho' F Le. inversion F as [|? ? F1 F2]; subst. destruct (IH _ _ F2 Le) as (qs' & X & Y).
    destruct (trivia_like _ _ _ _ _ _ F1 Tn L) as (L' & Lm). exists qs'. split; [|exact Y]. eapply GTI_trivia; [exact Tn|exact L'|eapply lG; [exact H|exact Lm|constructor]|exact X].
  - intros g0 rho e t min max i pre post K Le0 m' rho' _ _ _. exists []. split; [apply GTR_max, Le0|constructor].
  - intros g0 rho e t min max i pre post K p1 q1 K1 ps a b c qs Lt _ IH _ IH' m' rho' Lm Li Le. destruct (IH _ _ Lm Li Le) as (ps' & X & Y). destruct (IH' _ _ Lm Li Le) as (qs' & X' & Y').
    exists (ps' ++ qs'). split; [eapply GTR_round; eassumption|apply matched_app; assumption].
  - intros g0 rho e t min max i pre post K Lt Lm0 H m' rho' Lm Li Le. exists []. split; [|constructor]. apply GTR_stop; [exact Lt|exact Lm0|eapply lGR; eassumption].
  - intros g0 rho e t pre post K a b c ps _ IH m' rho' Lm Li Le. destruct (IH m' rho') as (qs & X & Y); [constructor; [exact Lm|constructor]|exact Le|]. exists qs. split; [apply GTR_first, X|exact Y].
  - intros g0 rho e t i pre post K a b c ps Lt _ IH m' rho' Lm Li Le. destruct (IH m' rho') as (qs & X & Y); [constructor; [exact Li|constructor; [exact Lm|constructor]]|exact Le|]. exists qs. split; [apply GTR_later; assumption|exact Y].
Qed.

Notation E := (Forall2 (event_alike kept)).
Notation Fr := (Forall2 (frame_alike kept)).
Lemma alike_tried : forall tr tr', E tr tr' -> tried_grammar_rule tr' = tried_grammar_rule tr.
Proof. intros tr tr' H. induction H as [|x y l l' H _ IH]; [reflexivity|]. unfold tried_grammar_rule in *. cbn [existsb]. rewrite IH. destruct H; reflexivity. Qed.

Theorem same_tries :
  (forall chain pol m rho e pre post K r tr, A chain pol m rho e pre post K r tr ->
     forall chain' m' rho', Fr chain chain' -> like_mod m m' (map fst rho) e -> like_env rho rho' -> exists tr', A' chain' pol m' rho' e pre post K r tr' /\ E tr tr') /\
  (forall chain pol m rho l pre post K r tr, AI chain pol m rho l pre post K r tr ->
     forall chain' m' rho', Fr chain chain' -> Forall (like_item m m' (map fst rho)) l -> like_env rho rho' -> exists tr', AI' chain' pol m' rho' l pre post K r tr' /\ E tr tr') /\
  (forall chain pol m rho e t min max i pre post K r tr, ARs chain pol m rho e t min max i pre post K r tr ->
     forall chain' m' rho', Fr chain chain' -> like_mod m m' (map fst rho) e -> like_item m m' (map fst rho) (It_trivia t) -> like_env rho rho' ->
     exists tr', ARs' chain' pol m' rho' e t min max i pre post K r tr' /\ E tr tr') /\
  (forall chain pol m rho e t i pre post K r tr, AR chain pol m rho e t i pre post K r tr ->
     forall chain' m' rho', Fr chain chain' -> like_mod m m' (map fst rho) e -> like_item m m' (map fst rho) (It_trivia t) -> like_env rho rho' ->
     exists tr', AR' chain' pol m' rho' e t i pre post K r tr' /\ E tr tr').
Proof.
  apply (gtry_mutind unicode property (open_own g)
    (fun chain pol m rho e pre post K r tr _ =>
     forall chain' m' rho', Fr chain chain' -> like_mod m m' (map fst rho) e -> like_env rho rho' -> exists tr', A' chain' pol m' rho' e pre post K r tr' /\ E tr tr')
    (fun chain pol m rho l pre post K r tr _ =>
     forall chain' m' rho', Fr chain chain' -> Forall (like_item m m' (map fst rho)) l -> like_env rho rho' -> exists tr', AI' chain' pol m' rho' l pre post K r tr' /\ E tr tr')
    (fun chain pol m rho e t min max i pre post K r tr _ =>
     forall chain' m' rho', Fr chain chain' -> like_mod m m' (map fst rho) e -> like_item m m' (map fst rho) (It_trivia t) -> like_env rho rho' ->
     exists tr', ARs' chain' pol m' rho' e t min max i pre post K r tr' /\ E tr tr')
    (fun chain pol m rho e t i pre post K r tr _ =>
     forall chain' m' rho', Fr chain chain' -> like_mod m m' (map fst rho) e -> like_item m m' (map fst rho) (It_trivia t) -> like_env rho rho' ->
     exists tr', AR' chain' pol m' rho' e t i pre post K r tr' /\ E tr tr')).
  - (* text *) intros chain pol m rho e pre post K r Q H chain' m' rho' Fc Lm Le. exists []. split; [apply GA_text; [exact Q|eapply lG; eassumption]|constructor].
  - (* built-in *) intros chain pol m rho path args q pre post K r Np N Nq Ns Nt H chain' m' rho' Fc Lm Le. exists []. split; [|constructor].
    eapply GA_builtin; [eapply like_none; eassumption|eapply builtin_like; eassumption|exact Nq|exact Ns|exact Nt|eapply lG; eassumption].
  - intros chain pol m rho path args q pre post r Np N Ns Tt H chain' m' rho' Fc Lm Le. eexists. split; [|repeat constructor; exact Fc].
    eapply GA_empty; [eapply like_none; eassumption|eapply builtin_like; eassumption|exact Ns|exact Tt|eapply lG; eassumption].
  - intros chain pol m rho path range q pre post K r Np N B H chain' m' rho' Fc Lm Le. exists []. split; [|constructor].
    eapply GA_slice; [eapply like_none; eassumption|eapply builtin_like; eassumption|exact B|eapply lG; eassumption].
  - intros chain pol m rho path range q pre post K r Np N B H chain' m' rho' Fc Lm Le. eexists. split; [|repeat constructor; exact Fc].
    eapply GA_bounds; [eapply like_none; eassumption|eapply builtin_like; eassumption|exact B|eapply lG; eassumption].
  - (* parameter *) intros chain pol m rho x args g1 rho1 e pre post K r tr As _ IH chain' m' rho' Fc Lm Le. destruct (like_assoc _ _ Le _ _ As) as (c' & As' & Lc). inversion Lc; subst.
    destruct (IH _ _ _ Fc ltac:(eassumption) ltac:(eassumption)) as (tr' & X & Y). exists tr'. split; [eapply GA_param; eassumption|exact Y].
  - (* rule *) intros chain pol m rho path args l g1 q pre post K r tr Np N Ca L No _ IH chain' m' rho' Fc Lm Le. destruct (rule_like _ _ _ _ _ _ _ Lm Np N) as (h' & N' & Lh & Ke & Op).
    destruct (IH (((h', q), blen pre) :: chain') h' (combine (pr_args q) (map (fun n => Clo m' rho' (n_expr n)) l))) as (tr' & X & Y);
      [constructor; [split; [exact Ke|reflexivity]|exact Fc]|rewrite combined by exact L; exact Lh|apply like_call; [exact Le|eapply args_like; eassumption]|].
    eexists. split; [eapply GA_rule; [eapply like_none; eassumption|exact N'|exact Ca|exact L|tauto|exact X]|]. apply Forall2_app; [exact Y|]. rewrite (alike_tried _ _ Y).
    destruct (tried_grammar_rule tr); constructor; [constructor; [exact Fc|exact Ke]|constructor].
  - (* open *) intros chain pol m rho path args l g1 q pre post K r tr Np N Ca L Op _ IH chain' m' rho' Fc Lm Le. destruct (rule_like _ _ _ _ _ _ _ Lm Np N) as (h' & N' & Lh & Ke & Oq).
    destruct (IH chain' h' (combine (pr_args q) (map (fun n => Clo m' rho' (n_expr n)) l))) as (tr' & X & Y);
      [exact Fc|rewrite combined by exact L; exact Lh|apply like_call; [exact Le|eapply args_like; eassumption]|].
    exists tr'. split; [|exact Y]. eapply GA_open; [eapply like_none; eassumption|exact N'|exact Ca|exact L|tauto|exact X].
  - intros chain pol m rho path n pre post K x post' K' tr Np N _ IH chain' m' rho' Fc Lm Le.
    destruct (IH chain' m' rho') as (tr' & X & Y); [exact Fc|eapply like_operand; [exact Lm|]; apply Op_arg; left; reflexivity|exact Le|]. exists tr'. split; [|exact Y].
    eapply GA_push_ok; [eapply like_none; eassumption|eapply builtin_like; eassumption|exact X].
  - intros chain pol m rho path n pre post K tr Np N _ IH chain' m' rho' Fc Lm Le.
    destruct (IH chain' m' rho') as (tr' & X & Y); [exact Fc|eapply like_operand; [exact Lm|]; apply Op_arg; left; reflexivity|exact Le|]. exists tr'. split; [|exact Y].
    eapply GA_push_fail; [eapply like_none; eassumption|eapply builtin_like; eassumption|exact X].
  - intros chain pol m rho n pre post K pre' post' K' tr _ IH chain' m' rho' Fc Lm Le. destruct (IH chain' m' rho' Fc) as (tr' & X & Y); [eapply like_operand; [exact Lm|constructor]|exact Le|]. exists tr'. split; [eapply GA_positive_ok, X|exact Y].
  - intros chain pol m rho n pre post K tr _ IH chain' m' rho' Fc Lm Le. destruct (IH chain' m' rho' Fc) as (tr' & X & Y); [eapply like_operand; [exact Lm|constructor]|exact Le|]. exists tr'. split; [eapply GA_positive_fail, X|exact Y].
  - intros chain pol m rho n pre post K tr _ IH chain' m' rho' Fc Lm Le. destruct (IH chain' m' rho' Fc) as (tr' & X & Y); [eapply like_operand; [exact Lm|constructor]|exact Le|]. exists tr'. split; [eapply GA_negative_ok, X|exact Y].
  - intros chain pol m rho n pre post K pre' post' K' tr _ IH chain' m' rho' Fc Lm Le. destruct (IH chain' m' rho' Fc) as (tr' & X & Y); [eapply like_operand; [exact Lm|constructor]|exact Le|]. exists tr'. split; [eapply GA_negative_fail, X|exact Y].
  - (* sequence *) intros chain pol m rho l r t pre post K res tr _ IH chain' m' rho' Fc Lm Le. destruct (IH chain' m' rho' Fc) as (tr' & X & Y); [|exact Le|exists tr'; split; [apply GA_seq, X|exact Y]].
    apply Forall_cons; [|apply Forall_cons; [|apply Forall_cons; [|apply Forall_nil]]].
    + eapply like_operand; [exact Lm|constructor].
    + eapply like_trivia; [exact Lm|]. left. exists l, r. apply Part_self.
    + eapply like_operand; [exact Lm|constructor].
  - intros chain pol m rho l r pre post K a b c tr _ IH chain' m' rho' Fc Lm Le. destruct (IH chain' m' rho' Fc) as (tr' & X & Y); [eapply like_operand; [exact Lm|constructor]|exact Le|]. exists tr'. split; [apply GA_left, X|exact Y].
  - intros chain pol m rho l r pre post K res tr tr2 _ IH _ IH' chain' m' rho' Fc Lm Le. destruct (IH chain' m' rho' Fc) as (tr' & X & Y); [eapply like_operand; [exact Lm|constructor]|exact Le|].
    destruct (IH' chain' m' rho' Fc) as (tr2' & X' & Y'); [eapply like_operand; [exact Lm|constructor]|exact Le|]. exists (tr' ++ tr2'). split; [apply GA_right; assumption|apply Forall2_app; assumption].
  - intros chain pol m rho n pre post K a b c tr _ IH chain' m' rho' Fc Lm Le. destruct (IH chain' m' rho' Fc) as (tr' & X & Y); [eapply like_operand; [exact Lm|constructor]|exact Le|]. exists tr'. split; [apply GA_some, X|exact Y].
  - intros chain pol m rho n pre post K tr _ IH chain' m' rho' Fc Lm Le. destruct (IH chain' m' rho' Fc) as (tr' & X & Y); [eapply like_operand; [exact Lm|constructor]|exact Le|]. exists tr'. split; [apply GA_none, X|exact Y].
  - (* repetition *) intros chain pol m rho e n min max t pre post K r tr Rp Rt _ IH chain' m' rho' Fc Lm Le.
    assert (Lo : like_mod m m' (map fst rho) (n_expr n)) by (eapply like_operand; [exact Lm|eapply rep_operand; exact Rp]).
    destruct (IH chain' m' rho' Fc Lo) as (tr' & X & Y); [eapply rounds_like; eassumption|exact Le|]. exists tr'. split; [eapply GA_repeat; eassumption|exact Y].
  - intros chain pol m rho n t pre post K r tr _ IH chain' m' rho' Fc Lm Le. destruct (IH chain' m' rho' Fc) as (tr' & X & Y); [eapply like_operand; [exact Lm|constructor]|exact Le|]. exists tr'. split; [apply GA_separated, X|exact Y].
  - intros chain pol m rho pre post K chain' m' rho' _ _ _. exists []. split; constructor.
  - intros chain pol m rho e l pre post K a b c r tr tr2 _ IH _ IH' chain' m' rho' Fc F Le. inversion F as [|? ? F1 F2]; subst. destruct (IH _ _ _ Fc F1 Le) as (tr' & X & Y). destruct (IH' _ _ _ Fc F2 Le) as (tr2' & X' & Y').
    exists (tr' ++ tr2'). split; [eapply GAI_expr; eassumption|apply Forall2_app; assumption].
  - intros chain pol m rho e l pre post K tr _ IH chain' m' rho' Fc F Le. inversion F as [|? ? F1 F2]; subst. destruct (IH _ _ _ Fc F1 Le) as (tr' & X & Y). exists tr'. split; [eapply GAI_expr_fail; eassumption|exact Y].
  - intros chain pol m rho l pre post K r tr _ IH chain' m' rho' Fc F Le. inversion F as [|? ? F1 F2]; subst. destruct (IH _ _ _ Fc F2 Le) as (tr' & X & Y). exists tr'. split; [apply GAI_none, X|exact Y].
  - intros chain pol m rho t name q l pre post K a b c r tr tr2 Tn L _ IH _ IH' chain' m' rho' Fc F Le. inversion F as [|? ? F1 F2]; subst. destruct (trivia_like _ _ _ _ _ _ F1 Tn L) as (L' & Lm).
    destruct (IH _ _ [] Fc Lm LE_nil) as (tr' & X & Y). destruct (IH' _ _ _ Fc F2 Le) as (tr2' & X' & Y'). exists (tr' ++ tr2'). split; [eapply GAI_trivia; eassumption|apply Forall2_app; assumption].
  - intros chain pol m rho t name q l pre post K tr Tn L _ IH chain' m' rho' Fc F Le. inversion F as [|? ? F1 F2]; subst. destruct (trivia_like _ _ _ _ _ _ F1 Tn L) as (L' & Lm).
    destruct (IH _ _ [] Fc Lm LE_nil) as (tr' & X & Y). exists tr'. split; [eapply GAI_trivia_fail; eassumption|exact Y].
  - intros chain pol m rho e t min max i pre post K Le0 chain' m' rho' _ _ _ _. exists []. split; [apply GAR_max, Le0|constructor].
  - intros chain pol m rho e t min max i pre post K a b c r tr tr2 Lt _ IH _ IH' chain' m' rho' Fc Lm Li Le. destruct (IH _ _ _ Fc Lm Li Le) as (tr' & X & Y). destruct (IH' _ _ _ Fc Lm Li Le) as (tr2' & X' & Y').
    exists (tr' ++ tr2'). split; [eapply GAR_round; eassumption|apply Forall2_app; assumption].
  - intros chain pol m rho e t min max i pre post K tr Lt Lm0 _ IH chain' m' rho' Fc Lm Li Le. destruct (IH _ _ _ Fc Lm Li Le) as (tr' & X & Y). exists tr'. split; [apply GAR_stop; assumption|exact Y].
  - intros chain pol m rho e t min max i pre post K tr Lt Lm0 _ IH chain' m' rho' Fc Lm Li Le. destruct (IH _ _ _ Fc Lm Li Le) as (tr' & X & Y). exists tr'. split; [apply GAR_fail; assumption|exact Y].
  - intros chain pol m rho e t pre post K r tr _ IH chain' m' rho' Fc Lm Li Le. destruct (IH chain' m' rho' Fc) as (tr' & X & Y); [constructor; [exact Lm|constructor]|exact Le|]. exists tr'. split; [apply GAR_first, X|exact Y].
  - intros chain pol m rho e t i pre post K r tr Lt _ IH chain' m' rho' Fc Lm Li Le. destruct (IH chain' m' rho' Fc) as (tr' & X & Y); [constructor; [exact Li|constructor; [exact Lm|constructor]]|exact Le|]. exists tr'. split; [apply GAR_later; assumption|exact Y].
Qed.
End Local.
