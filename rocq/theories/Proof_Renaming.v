(** Renaming what a grammar file names keeps the meaning. *)
From Coq Require Import String List NArith ZArith Arith Bool Lia.
From Verif Require Import Model_Text Model_Message Model_Meta Model_Import Model_Node Proof_Grammar_Tree_Inline Spec_Text Spec_Peg Spec_Grammar_Peg Spec_Occur Spec_Generator Spec_Inline Spec_Grammar_Tree Spec_Renaming.
Import ListNotations.
Open Scope list_scope.

Lemma re_same : forall f, (forall x, f x = x) -> forall e, re_expr f e = e.
Proof.
  intros f F. fix IH 1.
  intros [s|s|a b|p args|[e s]|[e s]|[e s] [e' s'] t|[e s] [e' s']|[e s]|[e s]|[e s]|[e s] range|[e s] t]; cbn [re_expr re_node]; try reflexivity; try (rewrite (IH e), (IH e'); reflexivity); try (rewrite (IH e); reflexivity).
  f_equal; [destruct p; cbn; [|rewrite F]; reflexivity|]. destruct args as [[l|range]|]; cbn [option_map re_args]; try reflexivity. do 2 f_equal.
  induction l as [|[e s] l IHl]; [reflexivity|]. cbn [map re_node]. rewrite (IH e), IHl. reflexivity.
Qed.
Lemma re_twice : forall f h, (forall x, h (f x) = x) -> forall e, re_expr h (re_expr f e) = e.
Proof.
  intros f h F. fix IH 1.
  intros [s|s|a b|p args|[e s]|[e s]|[e s] [e' s'] t|[e s] [e' s']|[e s]|[e s]|[e s]|[e s] range|[e s] t]; cbn [re_expr re_node]; try reflexivity; try (rewrite (IH e), (IH e'); reflexivity); try (rewrite (IH e); reflexivity).
  f_equal; [destruct p; cbn; [|rewrite F]; reflexivity|]. destruct args as [[l|range]|]; cbn [option_map re_args]; try reflexivity. do 2 f_equal.
  induction l as [|[e s] l IHl]; [reflexivity|]. cbn [map re_node]. rewrite (IH e), IHl. reflexivity.
Qed.
Lemma node_expr : forall f n, n_expr (re_node f n) = re_expr f (n_expr n).
Proof. intros f [e s]. reflexivity. Qed.
Lemma module_twice : forall f h, (forall x, h (f x) = x) -> forall g, re_module h (re_module f g) = g.
Proof.
  intros f h F [deps rules doc imports]. unfold re_module. cbn [g_deps g_rules g_doc g_imports]. rewrite !map_map. f_equal.
  - rewrite <- (map_id rules) at 2. apply map_ext. intros [d n a s [e s'] si]. unfold re_rule. cbn. rewrite F, (re_twice f h F), map_map. f_equal. rewrite <- (map_id a) at 2. apply map_ext. exact F.
  - rewrite <- (map_id imports) at 2. apply map_ext. intros [a p|a m]; cbn; rewrite F; reflexivity.
Qed.
Lemma renaming_back : forall f h, renaming f h -> renaming h f.
Proof.
  intros f h [U R P O M]. split; [exact R|exact U| | |].
  - rewrite <- P at 1. apply U.
  - rewrite <- O at 1. apply U.
  - rewrite <- M at 1. apply U.
Qed.

Section Renamed.
Variable unicode : list text.
Variable property : N -> char -> bool.
Variables f h : text -> text.
Hypothesis Ren : renaming f h.
Variable g : gmodule.

Lemma f_inj : forall x y, f x = f y -> x = y.
Proof. intros x y E. rewrite <- (re_undo _ _ Ren x), E. apply (re_undo _ _ Ren). Qed.
Definition keep (x : text) : text := x.
(** What is in the renamed file is renamed, everything else is as it was. *)
Inductive where_ : (text -> text) -> gmodule -> gmodule -> Prop :=
| W_here : where_ f g (re_module f g)
| W_there m : weight m < weight g -> where_ keep m m.
Lemma inj : forall p m m', where_ p m m' -> forall x y, p x = p y -> x = y.
Proof. intros p m m' [|m0 _] x y E; [apply f_inj, E|exact E]. Qed.
Inductive re_clo : closure -> closure -> Prop :=
| RC p m m' rho rho' e : where_ p m m' -> re_env p rho rho' -> re_clo (Clo m rho e) (Clo m' rho' (re_expr p e))
with re_env : (text -> text) -> list (text * closure) -> list (text * closure) -> Prop :=
| RE_nil p : re_env p [] []
| RE_cons p x c c' rho rho' : re_clo c c' -> re_env p rho rho' -> re_env p ((x, c) :: rho) ((p x, c') :: rho').
Definition re_item (p : text -> text) (i : item) : item := match i with It_expr e => It_expr (re_expr p e) | It_trivia t => It_trivia t end.

Lemma env_assoc : forall p m m' rho rho', where_ p m m' -> re_env p rho rho' -> forall x c, assoc x rho c -> exists c', assoc (p x) rho' c' /\ re_clo c c'.
Proof.
  intros p m m' rho rho' W H. induction H as [|p y c c' rho rho' Sc H IH]; intros x d A; inversion A; subst.
  - exists c'. split; [constructor|exact Sc].
  - destruct (IH W _ _ ltac:(eassumption)) as (d' & A' & S). exists d'. split; [constructor; [intro E; apply (inj _ _ _ W) in E; congruence|exact A']|exact S].
Qed.
Lemma env_back : forall p m m' rho rho', where_ p m m' -> re_env p rho rho' -> forall x c, assoc (p x) rho' c -> exists c', assoc x rho c'.
Proof.
  intros p m m' rho rho' W H. induction H as [|p y c c' rho rho' Sc H IH]; intros x d A; inversion A; subst.
  - match goal with E : p _ = p _ |- _ => apply (inj _ _ _ W) in E; subst end. exists c. constructor.
  - destruct (IH W _ _ ltac:(eassumption)) as (d' & A'). destruct (list_eq_dec N.eq_dec x y) as [->|D]; [exists c; constructor|exists d'; constructor; assumption].
Qed.
Lemma env_none : forall p m m' rho rho' path, where_ p m m' -> re_env p rho rho' -> (forall x c, path = [x] -> ~ assoc x rho c) -> forall x c, re_path p path = [x] -> ~ assoc x rho' c.
Proof.
  intros p m m' rho rho' path W H N x c E A. destruct path as [|y path]; [discriminate E|]. cbn in E. injection E as <- ->.
  destruct (env_back _ _ _ _ _ W H _ _ A) as (d & D). exact (N y d eq_refl D).
Qed.
Lemma env_call : forall p p' m m' rho rho' ps l, where_ p m m' -> re_env p rho rho' ->
  re_env p' (combine ps (map (fun n => Clo m rho (n_expr n)) l)) (combine (map p' ps) (map (fun n => Clo m' rho' (n_expr n)) (map (re_node p) l))).
Proof.
  intros p p' m m' rho rho' ps l W S. revert ps. induction l as [|n l IH]; intros [|x ps]; try constructor; [|apply IH].
  rewrite node_expr. econstructor; eassumption.
Qed.

(** Names. *)
Definition re_entity (x x' : entity) : Prop :=
  match x, x' with
  | E_builtin q, E_builtin q' => q = q'
  | E_rule m r, E_rule m' r' => exists p, where_ p m m' /\ In r (g_rules m) /\ r' = re_rule p r
  | _, _ => False
  end.
Lemma rule_kept : forall r, re_rule keep r = r.
Proof. intros [d n a s [e s'] si]. unfold re_rule. cbn. rewrite re_same by reflexivity. unfold keep. rewrite map_id. reflexivity. Qed.
Lemma own_low : forall m path x, own_name unicode m path x -> forall h r, x = E_rule h r -> In r (g_rules h) /\ (weight m < weight g -> weight h < weight g).
Proof.
  intros m path x N. induction N as [m r I Nt|m alias p path I B'|m alias m' rest x I N IH]; intros h0 q E.
  - injection E as <- <-. auto.
  - discriminate E.
  - destruct (IH h0 q E) as (J & L). split; [exact J|]. intro W. apply L. apply weight_import in I. lia.
Qed.
Lemma entity_kept : forall m path x, weight m < weight g -> own_name unicode m path x -> re_entity x x.
Proof.
  intros m path [q|h0 r] W N; cbn; [reflexivity|]. destruct (own_low _ _ _ N h0 r eq_refl) as (I & L). exists keep. split; [constructor; apply L, W|]. split; [exact I|rewrite rule_kept; reflexivity].
Qed.
Lemma path_kept : forall path, re_path keep path = path.
Proof. intros [|x path]; reflexivity. Qed.
Lemma names_re : forall p m m' path e, where_ p m m' -> names unicode m path e -> exists e', names unicode m' (re_path p path) e' /\ re_entity e e'.
Proof.
  intros p m m' path e W H. destruct W as [|m W]; [|rewrite path_kept; exists e; split; [exact H|]; inversion H; subst; [reflexivity|eapply entity_kept; eassumption]].
  inversion H as [q B|q x O Q]; subst.
  - exists (E_builtin q). split; [|reflexivity]. cbn [re_path]. rewrite (re_pest _ _ Ren). constructor. exact B.
  - assert (Sd : forall q', re_path f path = lit "pest" :: q' -> ~ builtin unicode q' /\ ~ builtin_group q').
    { intros q' E. destruct path as [|y path]; [discriminate E|]. cbn in E. injection E as E ->. apply Q. f_equal. apply f_inj. rewrite E. symmetry. apply (re_pest _ _ Ren). }
    assert (X : exists e', own_name unicode (re_module f g) (re_path f path) e' /\ re_entity e e').
    { inversion O as [? r I Nt|? a q rest I B|? a m rest ? I O']; subst; cbn [re_path].
      - exists (E_rule (re_module f g) (re_rule f r)). split; [|exists f; split; [constructor|split; [exact I|reflexivity]]].
        apply (O_rule unicode (re_module f g) (re_rule f r)); [apply in_map, I|]. intros [E|E]; apply Nt; [left|right]; apply f_inj; cbn in E; rewrite E; symmetry; [apply (re_optional _ _ Ren)|apply (re_mandatory _ _ Ren)].
      - exists (E_builtin (q ++ rest)). split; [|reflexivity]. apply O_builtin; [|exact B]. exact (in_map (re_import f) _ _ I).
      - exists e. split; [|eapply entity_kept; [eapply weight_import; exact I|exact O']]. eapply O_file; [exact (in_map (re_import f) _ _ I)|exact O']. }
    destruct X as (e' & O' & S). exists e'. split; [apply N_own; assumption|exact S].
Qed.
Lemma names_built : forall p m m' path q, where_ p m m' -> names unicode m path (E_builtin q) -> names unicode m' (re_path p path) (E_builtin q).
Proof. intros p m m' path q W H. destruct (names_re _ _ _ _ _ W H) as ([q'|m1 r] & H' & S); [|destruct S]. cbn in S. subst. exact H'. Qed.
Lemma trivia_re : forall p m m' t name r, where_ p m m' -> trivia_name t = Some name -> last_rule m name r ->
  exists r', last_rule m' name r' /\ n_expr (pr_node r') = re_expr p (n_expr (pr_node r)).
Proof.
  intros p m m' t name r W T L. destruct W as [|m W]; [|exists r; split; [exact L|rewrite re_same; reflexivity]].
  assert (Fx : f name = name) by (destruct t; cbn in T; [discriminate| |]; injection T as <-; [apply (re_optional _ _ Ren)|apply (re_mandatory _ _ Ren)]).
  destruct L as (a & b & E & Nm & Last). exists (re_rule f r). split; [|apply node_expr]. exists (map (re_rule f) a), (map (re_rule f) b). split; [|split].
  - cbn [re_module g_rules]. rewrite E, map_app. reflexivity.
  - cbn. congruence.
  - intros q I. apply in_map_iff in I. destruct I as (q0 & <- & I). cbn. intro Q. apply (Last q0 I), f_inj. congruence.
Qed.
Lemma repetition_re : forall p e n min max, repetition e n min max -> repetition (re_expr p e) (re_node p n) min max.
Proof. intros p e n min max [(-> & H)|[(-> & H)|(range & -> & H)]]; [left|right; left|right; right; exists range]; (split; [reflexivity|exact H]). Qed.
Lemma round_trivia_re : forall p e t, round_trivia e t -> round_trivia (re_expr p e) t.
Proof. intros p e t [(n & ->)|(H & ->)]; [left; exists (re_node p n); reflexivity|]. right. split; [|reflexivity]. intros n t' E. destruct e; try discriminate E. exact (H _ _ eq_refl). Qed.
Lemma call_re : forall p args l, call_arguments args l -> call_arguments (option_map (re_args p) args) (map (re_node p) l).
Proof. intros p args l [->|(-> & ->)]; [left|right]; cbn; auto. Qed.

Theorem renamed_meaning :
  (forall m rho e pre post K r, gpeg unicode property m rho e pre post K r ->
     forall p m' rho', where_ p m m' -> re_env p rho rho' -> gpeg unicode property m' rho' (re_expr p e) pre post K r) /\
  (forall m rho l pre post K r, gpeg_items unicode property m rho l pre post K r ->
     forall p m' rho', where_ p m m' -> re_env p rho rho' -> gpeg_items unicode property m' rho' (map (re_item p) l) pre post K r) /\
  (forall m rho e t min max i pre post K r, gpeg_rounds unicode property m rho e t min max i pre post K r ->
     forall p m' rho', where_ p m m' -> re_env p rho rho' -> gpeg_rounds unicode property m' rho' (re_expr p e) t min max i pre post K r) /\
  (forall m rho e t i pre post K r, gpeg_round unicode property m rho e t i pre post K r ->
     forall p m' rho', where_ p m m' -> re_env p rho rho' -> gpeg_round unicode property m' rho' (re_expr p e) t i pre post K r).
Proof.
  apply (gpeg_mutind unicode property
    (fun m rho e pre post K r _ => forall p m' rho', where_ p m m' -> re_env p rho rho' -> gpeg unicode property m' rho' (re_expr p e) pre post K r)
    (fun m rho l pre post K r _ => forall p m' rho', where_ p m m' -> re_env p rho rho' -> gpeg_items unicode property m' rho' (map (re_item p) l) pre post K r)
    (fun m rho e t min max i pre post K r _ => forall p m' rho', where_ p m m' -> re_env p rho rho' -> gpeg_rounds unicode property m' rho' (re_expr p e) t min max i pre post K r)
    (fun m rho e t i pre post K r _ => forall p m' rho', where_ p m m' -> re_env p rho rho' -> gpeg_round unicode property m' rho' (re_expr p e) t i pre post K r)).
  - intros. apply G_str. assumption.
  - intros. apply G_insens. assumption.
  - intros. apply G_range. assumption.
  - (* parameter *) intros m rho x args m1 rho1 e pre post K r a _ IH p m' rho' W E. destruct (env_assoc _ _ _ _ _ W E _ _ a) as (c' & A & Sc). inversion Sc; subst. cbn [re_expr re_path]. eapply G_param; [exact A|]. apply IH; assumption.
  - (* rule *) intros m rho path args l m1 r1 pre post K r Nn Nm Ca Le _ IH p m' rho' W E. destruct (names_re _ _ _ _ _ W Nm) as ([q|h2 r2] & N' & S); [destruct S|]. destruct S as (p2 & W2 & _ & ->).
    cbn [re_expr]. eapply G_rule; [eapply env_none; eassumption|exact N'|apply call_re; eassumption|cbn [re_rule pr_args]; rewrite !map_length; assumption|].
    cbn [re_rule pr_args pr_node]. rewrite node_expr. apply IH; [exact W2|]. apply env_call; assumption.
  - (* built-in *) intros m rho path args q pre post K r Nn Nm Ar B p m' rho' W E. cbn [re_expr]. eapply G_builtin; [eapply env_none; eassumption|eapply names_built; eassumption| |exact B].
    destruct Ar as [->|(-> & X)]; [left; reflexivity|right; split; [reflexivity|exact X]].
  - (* slice *) intros m rho path range a n pre post K r Nn Nm Ra Rb B p m' rho' W E. cbn [re_expr option_map re_args]. eapply G_slice; [eapply env_none; eassumption|eapply names_built; eassumption|exact Ra|exact Rb|exact B].
  - (* push *) intros m rho path n pre post K x post' K' Nn Nm _ IH p m' rho' W E. cbn [re_expr option_map re_args map]. eapply G_push_ok; [eapply env_none; eassumption|eapply names_built; eassumption|]. rewrite node_expr. apply IH; assumption.
  - intros m rho path n pre post K Nn Nm _ IH p m' rho' W E. cbn [re_expr option_map re_args map]. eapply G_push_fail; [eapply env_none; eassumption|eapply names_built; eassumption|]. rewrite node_expr. apply IH; assumption.
  - intros m rho n pre post K pre' post' K' _ IH p m' rho' W E. cbn [re_expr]. eapply G_positive_ok. rewrite node_expr. apply IH; assumption.
  - intros m rho n pre post K _ IH p m' rho' W E. cbn [re_expr]. eapply G_positive_fail. rewrite node_expr. apply IH; assumption.
  - intros m rho n pre post K _ IH p m' rho' W E. cbn [re_expr]. eapply G_negative_ok. rewrite node_expr. apply IH; assumption.
  - intros m rho n pre post K pre' post' K' _ IH p m' rho' W E. cbn [re_expr]. eapply G_negative_fail. rewrite node_expr. apply IH; assumption.
  - (* sequence *) intros m rho l r t pre post K res _ IH p m' rho' W E. cbn [re_expr]. apply G_seq. rewrite !node_expr. exact (IH p m' rho' W E).
  - intros m rho l r pre post K pre' post' K' _ IH p m' rho' W E. cbn [re_expr]. apply G_choice_left. rewrite node_expr. apply IH; assumption.
  - intros m rho l r pre post K res _ IH _ IH' p m' rho' W E. cbn [re_expr]. apply G_choice_right; rewrite node_expr; [apply IH|apply IH']; assumption.
  - intros m rho n pre post K pre' post' K' _ IH p m' rho' W E. cbn [re_expr]. apply G_opt_some. rewrite node_expr. apply IH; assumption.
  - intros m rho n pre post K _ IH p m' rho' W E. cbn [re_expr]. apply G_opt_none. rewrite node_expr. apply IH; assumption.
  - (* repetition *) intros m rho e n min max t pre post K r Rp Rt _ IH p m' rho' W E. eapply G_repeat; [apply repetition_re; exact Rp|rewrite node_expr; apply round_trivia_re; exact Rt|]. rewrite node_expr. apply IH; assumption.
  - intros m rho n t pre post K r _ IH p m' rho' W E. cbn [re_expr]. apply G_separated. rewrite node_expr. apply IH; assumption.
  - intros. apply GI_nil.
  - intros m rho e l pre post K pre' post' K' r _ IH _ IH' p m' rho' W E. eapply GI_expr; [apply IH|apply IH']; assumption.
  - intros m rho e l pre post K _ IH p m' rho' W E. apply GI_expr_fail. apply IH; assumption.
  - intros m rho l pre post K r _ IH p m' rho' W E. apply GI_none. apply IH; assumption.
  - intros m rho t name r1 l pre post K pre' post' K' r T L _ IH _ IH' p m' rho' W E. destruct (trivia_re _ _ _ _ _ _ W T L) as (r2 & L2 & En).
    eapply GI_trivia; [exact T|exact L2|rewrite En; apply IH; [exact W|constructor]|apply IH'; assumption].
  - intros m rho t name r1 l pre post K T L _ IH p m' rho' W E. destruct (trivia_re _ _ _ _ _ _ W T L) as (r2 & L2 & En).
    eapply GI_trivia_fail; [exact T|exact L2|rewrite En; apply IH; [exact W|constructor]].
  - intros. apply GR_max. assumption.
  - intros m rho e t min max i pre post K pre' post' K' r L _ IH _ IH' p m' rho' W E. eapply GR_round; [exact L|apply IH; assumption|apply IH'; assumption].
  - intros m rho e t min max i pre post K L L' _ IH p m' rho' W E. apply GR_stop; [exact L|exact L'|apply IH; assumption].
  - intros m rho e t min max i pre post K L L' _ IH p m' rho' W E. apply GR_fail; [exact L|exact L'|apply IH; assumption].
  - intros m rho e t pre post K r _ IH p m' rho' W E. apply GR_first. exact (IH p m' rho' W E).
  - intros m rho e t i pre post K r L _ IH p m' rho' W E. apply GR_later; [exact L|]. exact (IH p m' rho' W E).
Qed.
End Renamed.
