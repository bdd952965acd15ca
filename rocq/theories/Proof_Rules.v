(** The emitted [Rule] enums. *)
From Coq Require Import String List NArith ZArith Arith Bool Lia.
From Verif Require Import Model_Text Model_Message Model_Meta Model_Import Model_Tracker Model_Node Model_Generator Model_Output
  Spec_Text Spec_Peg Spec_Grammar_Peg Spec_Occur Spec_Generator Spec_Rust Spec_Rules Proof_Text Proof_Emit Proof_Box Proof_Process Proof_Names
  Proof_Place.
Import ListNotations.
Open Scope list_scope.

Definition sub_impls (o : output) : list rimpl :=
  map (fun no : text * output => Impl_sub [fst no; lit "Rule"] [lit "super"; lit "Rule"] [lit "super"; lit "Rule"; fst no]) (o_modules o).
Lemma collect_output_all : forall rm o,
  fst (collect_output rm o) = [(lit "Rule", R_enum (o_variants o)); (types_mod rm, R_mod (sub_items rm o) (sub_impls o))].
Proof.
  intros rm o. destruct (collect_output_eq rm o) as (impls & E). rewrite E. destruct o as [c a b m v].
  cbn [collect_output fst] in E. injection E as _ E. rewrite <- E. reflexivity.
Qed.
Lemma collect_output_supers : forall rm o self super variant, ~ In (Impl_sub self super variant) (snd (collect_output rm o)).
Proof.
  intros rm [c a b m v] self super variant I. cbn [collect_output snd] in I. apply in_flat_map in I.
  destruct I as ([n|n p] & _ & I); cbn [In] in I; [destruct I|destruct I as [I|[]]; discriminate].
Qed.

Lemma impls_at_app : forall a b items, b <> [] ->
  impls_at items (a ++ b) = match module_at items a with Some sub => impls_at sub b | None => None end.
Proof.
  induction a as [|k a IH]; intros b items N; [reflexivity|]. cbn [app module_at impls_at].
  destruct (entry k items) as [[]|]; try reflexivity. rewrite IH by exact N. destruct a; [|reflexivity]. cbn [app]. destruct b; [congruence|reflexivity].
Qed.

Lemma resolve_super : forall items m p, m <> [] -> resolve items m (lit "super" :: p) = resolve items (removelast m) p.
Proof. intros items [|k m] p N; [congruence|]. reflexivity. Qed.
Lemma resolve_own : forall items m k p sub, k <> lit "super" -> k <> pest_crate -> module_at items m = Some sub ->
  resolve items m (k :: p) = descend m sub (k :: p).
Proof.
  intros items m k p sub N N' A. cbn [resolve]. destruct (teqb k pest_crate) as [|_]; [congruence|].
  destruct (teqb k (lit "super")) as [|_]; [congruence|]. rewrite A. reflexivity.
Qed.

Lemma ancestor_up : forall m a t n, m <> [] -> ancestor (m ++ [a; t]) (S n) = ancestor m n.
Proof.
  intros m a t n N. induction n as [|n IH].
  - cbn [ancestor]. change [a; t] with ([a] ++ [t]). rewrite app_assoc, removelast_last, removelast_last. reflexivity.
  - change (ancestor (m ++ [a; t]) (S (S n))) with (removelast (removelast (ancestor (m ++ [a; t]) (S n)))). rewrite IH. reflexivity.
Qed.
Lemma ancestor_low : forall m a t, ancestor (m ++ [a; t]) 0 = m ++ [a].
Proof. intros m a t. cbn [ancestor]. change [a; t] with ([a] ++ [t]). rewrite app_assoc, removelast_last. reflexivity. Qed.
Lemma enum_of_value : forall m name n, enum_of (rule_value m name n) = ancestor m n.
Proof. intros m name [|n]; reflexivity. Qed.

Section Rules.
Variable config : gconfig.
Variable fuel : nat.
Variable unicode : list text.
Variable T : gtracker.
Variable top : gmodule.
Variable o_top : output.
Variable coll_top : list (text * mnode).
Notation rm := (rules_mod config).
Notation tm := (types_mod rm).
Notation items := (all_items config T o_top).
Hypothesis Types : fine_types_mod tm top.
Hypothesis Top : Made config fuel unicode T 0 top o_top coll_top.
Hypothesis Fine : fine unicode top.

Definition placed (m : list text) (g : gmodule) (o : output) : Prop :=
  (exists depth coll, length m = S (2 * depth) /\ Made config fuel unicode T depth g o coll) /\ fine unicode g /\ m <> [] /\ last m [] = tm /\
  module_at items m = Some (sub_items rm o) /\ impls_at items m = Some (sub_impls o) /\
  enum_at items (removelast m) (o_variants o).

Lemma place : forall m g, located tm top m g -> exists o, placed m g o.
Proof.
  assert (Ap := tm_ne config top Types).
  intros m g L. induction L as [|m g alias g' L (o & (depth & coll & Len & M) & F & Ne & La & At & Im & En) I].
  - exists o_top. split; [exists 0, coll_top; split; [reflexivity|exact Top]|]. split; [exact Fine|]. split; [discriminate|]. split; [reflexivity|].
    assert (E : entry tm items = Some (R_mod (sub_items rm o_top) (sub_impls o_top))).
    { unfold all_items. rewrite collect_output_all. rewrite entry_app_l.
      - rewrite entry_skip by (apply Ap; left; reflexivity). rewrite entry_cons by (intros []). reflexivity.
      - cbn [collect_tracker map fst In]. intros [H|[H|[H|[]]]]; symmetry in H; revert H.
        + apply (Ap "wrapper"%string). cbn [In]. tauto.
        + apply (Ap "unicode"%string). cbn [In]. tauto.
        + apply (Ap "generics"%string). cbn [In]. tauto. }
    cbn [module_at impls_at removelast]. rewrite E. split; [reflexivity|]. split; [reflexivity|].
    exists items. split; [reflexivity|]. unfold all_items. rewrite collect_output_all. rewrite entry_app_l.
    + rewrite entry_cons; [reflexivity|]. intros [H|[]]. revert H. apply (Ap "Rule"%string). left. reflexivity.
    + cbn [collect_tracker map fst In]. intros [H|[H|[H|[]]]]; discriminate.
  - assert (Nd := sub_items_nodup config fuel unicode T _ _ _ _ M F).
    destruct M as [depth g o coll reach _ Fl _ _ _ _ _ _ _ _ _ _].
    destruct (Fl _ _ I) as (o' & coll' & Io & _ & M'). inversion F as [g0 _ _ _ _ _ _ _ _ Fi]. subst g0.
    assert (Ea : entry alias (sub_items rm o) = Some (R_mod (fst (collect_output rm o')) (snd (collect_output rm o')))).
    { apply entry_unique; [exact Nd|]. unfold sub_items. apply in_or_app. right. apply in_or_app. left.
      apply (in_map (child_item rm)) in Io. exact Io. }
    assert (Er : entry tm (fst (collect_output rm o')) = Some (R_mod (sub_items rm o') (sub_impls o'))).
    { rewrite collect_output_all. rewrite entry_skip by (apply Ap; left; reflexivity). rewrite entry_cons by (intros []). reflexivity. }
    exists o'. split; [exists (S depth), coll'; split; [rewrite app_length, Len; cbn [length]; lia|exact M']|].
    split; [eapply Fi, I|]. split; [destruct m; discriminate|]. split; [change [alias; tm] with ([alias] ++ [tm]); rewrite app_assoc; apply last_last|].
    rewrite module_at_app, At. rewrite impls_at_app by discriminate. rewrite At. cbn [module_at impls_at]. rewrite Ea, Er.
    split; [reflexivity|]. split; [reflexivity|].
    change [alias; tm] with ([alias] ++ [tm]). rewrite app_assoc, removelast_last.
    exists (fst (collect_output rm o')). split.
    + rewrite module_at_app, At. cbn [module_at]. rewrite Ea. reflexivity.
    + rewrite collect_output_all. rewrite entry_cons; [reflexivity|]. intros [H|[]]. revert H. apply (Ap "Rule"%string). left. reflexivity.
Qed.

Lemma placed_variants : forall m g o, placed m g o -> o_variants o = rule_enum g.
Proof. intros m g o ((depth & coll & _ & M) & _). destruct M as [depth g o coll reach _ _ _ _ _ _ _ _ _ _ _ (V & _)]. exact V. Qed.
Lemma placed_enum : forall m g o, placed m g o -> names_enum items m [lit "super"; lit "Rule"] (removelast m) /\
  names_enum items (removelast m) [lit "Rule"] (removelast m).
Proof.
  intros m g o (_ & _ & Ne & _ & _ & _ & its & At & En).
  assert (R : resolve items (removelast m) [lit "Rule"] = Some (T_item (removelast m) (R_enum (o_variants o)))).
  { rewrite (resolve_own items (removelast m) (lit "Rule") [] its ltac:(discriminate) ltac:(discriminate) At). cbn [descend]. rewrite En. reflexivity. }
  split; (split; [eexists|]).
  - change [lit "super"; lit "Rule"] with ([lit "super"] ++ [lit "Rule"]). reflexivity.
  - eexists. rewrite resolve_super by exact Ne. exact R.
  - change [lit "Rule"] with ([] ++ [lit "Rule"]). reflexivity.
  - eexists. exact R.
Qed.
Lemma placed_child : forall m g o alias g', located tm top m g -> placed m g o -> In (File alias g') (g_imports g) ->
  names_enum items m [alias; lit "Rule"] (m ++ [alias]) /\
  names_enum items (removelast m) [lit "rules"; alias; lit "Rule"] (m ++ [alias]) /\
  In (Impl_sub [alias; lit "Rule"] [lit "super"; lit "Rule"] [lit "super"; lit "Rule"; alias]) (sub_impls o).
Proof.
  intros m g o alias g' L P I. assert (Tm := types_rules config top Types _ _ _ _ L I).
  destruct P as ((depth & coll & Len & M) & F & Ne & La & At & Im & its & Ar & En).
  assert (Nd := sub_items_nodup config fuel unicode T _ _ _ _ M F).
  destruct M as [depth g o coll reach _ Fl _ _ _ _ _ _ _ _ _ _].
  destruct (Fl _ _ I) as (o' & coll' & Io & _ & M'). inversion F as [g0 _ Rs _ _ _ _ _ _ Fi]. subst g0.
  assert (Ea : entry alias (sub_items rm o) = Some (R_mod (fst (collect_output rm o')) (snd (collect_output rm o')))).
  { apply entry_unique; [exact Nd|]. unfold sub_items. apply in_or_app. right. apply in_or_app. left.
    apply (in_map (child_item rm)) in Io. exact Io. }
  assert (Er : entry (lit "Rule") (fst (collect_output rm o')) = Some (R_enum (o_variants o'))).
  { rewrite collect_output_all, Tm. rewrite entry_cons; [reflexivity|]. intros [H|[]]. discriminate. }
  assert (Na := Rs _ I). cbn [import_alias] in Na.
  assert (De : descend m (sub_items rm o) [alias; lit "Rule"] = Some (T_item (m ++ [alias]) (R_enum (o_variants o')))).
  { cbn [descend]. rewrite Ea, Er. reflexivity. }
  split; [|split].
  - split; [exists [alias]; reflexivity|]. eexists.
    rewrite (resolve_own items m alias [lit "Rule"] (sub_items rm o)).
    + exact De.
    + intros ->. apply Na. unfold reserved. cbn [map In]. tauto.
    + intros ->. apply Na. unfold reserved, pest_crate. cbn [map In]. tauto.
    + exact At.
  - split; [exists [lit "rules"; alias]; reflexivity|]. eexists. rewrite (resolve_own items (removelast m) (lit "rules") [alias; lit "Rule"] its ltac:(discriminate) ltac:(discriminate) Ar).
    assert (Em : m = removelast m ++ [lit "rules"]) by (rewrite <- Tm, <- La; apply app_removelast_last; exact Ne).
    assert (Et : exists impls, entry (lit "rules") its = Some (R_mod (sub_items rm o) impls)).
    { rewrite Em, module_at_app, Ar in At. cbn [module_at] in At. destruct (entry (lit "rules") its) as [[]|]; try discriminate.
      injection At as ->. eexists. reflexivity. }
    destruct Et as (impls & Et). cbn [descend]. rewrite Et. rewrite <- Em. exact De.
  - unfold sub_impls. apply (in_map (fun no : text * output => Impl_sub [fst no; lit "Rule"] [lit "super"; lit "Rule"] [lit "super"; lit "Rule"; fst no])) in Io. exact Io.
Qed.

Lemma enum_spec : forall g v, In v (rule_enum g) <->
  v = V_plain (lit "EOI") \/ (exists r, In r (g_rules g) /\ ~ is_trivia_rule r /\ v = V_plain (pr_name r)) \/
  (exists alias g', In (File alias g') (g_imports g) /\ v = V_module alias [lit "rules"; alias; lit "Rule"]).
Proof.
  intros g v. unfold rule_enum. cbn [In]. rewrite in_app_iff, in_map_iff, in_flat_map. split.
  - intros [<-|[(r & <- & I)|([a p|a g'] & I & J)]]; [left; reflexivity| | |].
    + right. left. apply plain_in in I. exists r. tauto.
    + destruct J.
    + right. right. cbn [In] in J. destruct J as [<-|[]]. exists a, g'. split; [exact I|reflexivity].
  - intros [->|[(r & I & N & ->)|(a & g' & I & ->)]]; [left; reflexivity| |].
    + right. left. exists r. split; [reflexivity|]. apply plain_in. split; assumption.
    + right. right. exists (File a g'). split; [exact I|]. left. reflexivity.
Qed.

(** One conversion. *)
Lemma convert_step : forall m g alias g' v, located tm top m g -> In (File alias g') (g_imports g) -> enum_of v = m ++ [alias] ->
  converts items v (RV_in (removelast m) alias v) /\ (well_typed items v -> well_typed items (RV_in (removelast m) alias v)).
Proof.
  intros m g alias g' v L I Ev. destruct (place _ _ L) as (o & P). destruct (placed_child _ _ _ _ _ L P I) as (C1 & C2 & C3).
  destruct (placed_enum _ _ _ P) as (S1 & S2). assert (V := placed_variants _ _ _ P).
  destruct P as (_ & _ & _ & _ & _ & Im & En). split.
  - exists m, (sub_impls o), [alias; lit "Rule"], [lit "super"; lit "Rule"], alias, (removelast m).
    split; [exact Im|]. split; [exact C3|]. split; [rewrite Ev; exact C1|]. split; [exact S1|reflexivity].
  - intro W. eapply WT_in; [exact En| | |exact W].
    + rewrite V. apply enum_spec. right. right. exists alias, g'. split; [exact I|reflexivity].
    + rewrite Ev. exact C2.
Qed.

(** The path of an ancestor's enum. *)
Definition up (n : nat) : list text := lit "super" :: concat (repeat [lit "super"; lit "super"] n) ++ [lit "Rule"].
Lemma up_last : forall n, exists p, up n = p ++ [lit "Rule"].
Proof. intro n. exists (lit "super" :: concat (repeat [lit "super"; lit "super"] n)). reflexivity. Qed.
Lemma up_succ : forall n m, 2 * n + 1 < length m -> resolve items m (up (S n)) = resolve items (removelast (removelast m)) (up n).
Proof.
  intros n m L. unfold up. change (concat (repeat [lit "super"; lit "super"] (S n))) with ([lit "super"; lit "super"] ++ concat (repeat [lit "super"; lit "super"] n)).
  cbn [app]. rewrite resolve_super by (destruct m; [cbn in L; lia|discriminate]). rewrite resolve_super; [reflexivity|].
  destruct m as [|x [|y m]]; cbn [length] in L; try lia. discriminate.
Qed.

Lemma ancestor_step : forall m g, located tm top m g -> forall n, S (2 * S n) <= length m ->
  exists m1 g1 alias g2, located tm top m1 g1 /\ In (File alias g2) (g_imports g1) /\
    ancestor m n = m1 ++ [alias] /\ ancestor m (S n) = removelast m1.
Proof.
  intros m g L. induction L as [|m g alias g' L IH I]; intros n Le.
  - cbn [length] in Le. lia.
  - assert (Ne : m <> []) by (destruct (place _ _ L) as (o & _ & _ & X & _); exact X).
    rewrite app_length in Le. cbn [length] in Le. rewrite ancestor_up by exact Ne. destruct n as [|n].
    + exists m, g, alias, g'. rewrite ancestor_low. auto.
    + rewrite ancestor_up by exact Ne. apply IH. lia.
Qed.
Lemma ancestor_place : forall m g, located tm top m g -> forall n, S (2 * n) <= length m ->
  exists m1 g1, located tm top m1 g1 /\ ancestor m n = removelast m1.
Proof.
  intros m g L [|n] Le; [exists m, g; split; [exact L|reflexivity]|].
  destruct (ancestor_step _ _ L n Le) as (m1 & g1 & _ & _ & L1 & _ & _ & E). exists m1, g1. split; assumption.
Qed.
Lemma ancestor_named : forall n m g, located tm top m g -> S (2 * n) <= length m -> names_enum items m (up n) (ancestor m n).
Proof.
  intros n m g L Le. destruct (ancestor_place _ _ L n Le) as (m1 & g1 & L1 & E). destruct (place _ _ L1) as (o & P).
  destruct (placed_enum _ _ _ P) as (_ & _ & vs & R). rewrite <- E in R. split; [apply up_last|]. exists vs.
  rewrite <- R. clear - Le L Types Top Fine. revert n Le. induction L as [|m g alias g' L IH I]; intros [|n] Le.
  - reflexivity.
  - cbn [length] in Le. lia.
  - unfold up. cbn [repeat concat app]. rewrite resolve_super by (destruct m; discriminate). reflexivity.
  - rewrite app_length in Le. cbn [length] in Le. assert (Ne : m <> []) by (destruct (place _ _ L) as (o & _ & _ & X & _); exact X).
    rewrite up_succ by (rewrite app_length; cbn [length]; lia). rewrite ancestor_up by exact Ne.
    change [alias; tm] with ([alias] ++ [tm]). rewrite app_assoc, removelast_last, removelast_last. apply IH. lia.
Qed.
Lemma value_converted : forall m g name, located tm top m g -> (name = lit "EOI" \/ exists r, In r (g_rules g) /\ ~ is_trivia_rule r /\ pr_name r = name) ->
  forall n, S (2 * n) <= length m ->
  converts_times items n (RV (removelast m) name) (rule_value m name n) /\ well_typed items (rule_value m name n).
Proof.
  intros m g name L Nn. induction n as [|n IH]; intro Le.
  - split; [constructor|]. destruct (place _ _ L) as (o & P). assert (V := placed_variants _ _ _ P).
    destruct P as (_ & _ & _ & _ & _ & _ & En). eapply WT_plain; [exact En|]. rewrite V. apply enum_spec.
    destruct Nn as [->|(r & I & N & <-)]; [left; reflexivity|]. right. left. exists r. auto.
  - destruct IH as (C & W); [lia|]. destruct (ancestor_step _ _ L n Le) as (m1 & g1 & alias & g2 & L1 & I & E & E').
    assert (Ev : enum_of (rule_value m name n) = m1 ++ [alias]) by (rewrite enum_of_value; exact E).
    destruct (convert_step _ _ _ _ _ L1 I Ev) as (C1 & W1).
    assert (Er : rule_value m name (S n) = RV_in (removelast m1) alias (rule_value m name n)).
    { cbn [rule_value]. rewrite E', E, last_last. reflexivity. }
    rewrite Er. split; [eapply Conv_S; eassumption|auto].
Qed.

(** Implementations are nowhere else. *)
Lemma impls_found : forall g depth o coll, Made config fuel unicode T depth g o coll -> fine unicode g ->
  forall m impls, impls_at (fst (collect_output rm o)) m = Some impls ->
  forall self super variant, In (Impl_sub self super variant) impls ->
  exists alias, ~ In alias reserved /\ self = [alias; lit "Rule"] /\ super = [lit "super"; lit "Rule"] /\ variant = [lit "super"; lit "Rule"; alias].
Proof.
  intro g. induction g as [g IH] using gmodule_rect'. intros depth o coll M F m impls A self super variant I.
  assert (Nd := sub_items_nodup config fuel unicode T _ _ _ _ M F).
  destruct M as [depth g o coll reach _ Fl Fl' _ _ _ _ Nm _ _ _ _]. inversion F as [g0 _ Rs _ _ _ _ _ _ Fi]. subst g0.
  destruct m as [|k m]; [discriminate|]. cbn [impls_at] in A.
  rewrite collect_output_all in A. destruct (entry k _) as [i|] eqn:E; [|discriminate]. apply entry_in in E. cbn [In] in E.
  destruct E as [E|[E|[]]]; injection E as <- <-; [discriminate|].
  destruct m as [|k m].
  - injection A as <-. unfold sub_impls in I. apply in_map_iff in I. destruct I as ((a, o') & E & I). injection E as <- <- <-.
    exists a. cbn [fst]. split; [|auto]. destruct (Fl' _ _ I) as (g' & J). apply (Rs _ J).
  - cbn [impls_at] in A. destruct (entry k (sub_items rm o)) as [i|] eqn:E; [|discriminate]. apply entry_in in E.
    unfold sub_items in E. apply in_app_or in E. destruct E as [E|E].
    { cbn [In] in E. destruct E as [E|[E|[]]]; injection E as _ <-; destruct m; discriminate. }
    apply in_app_or in E. destruct E as [E|E]; apply in_map_iff in E; [|destruct E as (s & E & _); injection E as _ <-; destruct m; discriminate].
    destruct E as ((a, o') & E & J). unfold child_item in E. cbn [fst snd] in E. injection E as <- <-.
    destruct m as [|k' m]; [injection A as <-; exfalso; exact (collect_output_supers _ _ _ _ _ I)|].
    destruct (Fl' _ _ J) as (g' & Jf). destruct (Fl _ _ Jf) as (o1 & coll1 & J1 & _ & M1).
    assert (X : (a, o') = (a, o1)) by (eapply (nodup_map fst); [exact Nm|exact J|exact J1|reflexivity]). injection X as <-.
    eapply (IH a g' Jf); [exact M1|eapply Fi, Jf|exact A|exact I].
Qed.
Definition flat (l : list (text * ritem)) : Prop := forall k sub impls, ~ In (k, R_mod sub impls) l.
Lemma flat_app : forall l l', flat l -> flat l' -> flat (l ++ l').
Proof. intros l l' F F' k sub impls I. apply in_app_or in I. destruct I as [I|I]; [exact (F _ _ _ I)|exact (F' _ _ _ I)]. Qed.
Lemma flat_mapped : forall {A : Type} (f : A -> text * ritem) l, (forall a sub impls, snd (f a) <> R_mod sub impls) -> flat (map f l).
Proof. intros A f l H k sub impls I. apply in_map_iff in I. destruct I as (a & E & _). apply (H a sub impls). rewrite E. reflexivity. Qed.
Lemma tracker_mods : forall k sub impls, In (k, R_mod sub impls) (collect_tracker T) -> flat sub /\ impls = [].
Proof.
  intros k sub impls [E|[E|[E|[]]]]; [|discriminate|];
    match type of E with (_, R_mod ?X _) = _ => assert (Fx : flat X); [|revert E Fx; generalize X; intros l E Fx; injection E as _ <- <-; auto] end.
  - apply flat_mapped. discriminate.
  - apply flat_app; [apply flat_mapped; discriminate|]. apply flat_app; unfold fill; apply flat_mapped; intros n s i; cbn [snd]; destruct (16 <? n); discriminate.
Qed.
Lemma tracker_impls : forall m impls, impls_at (collect_tracker T) m = Some impls -> impls = [].
Proof.
  assert (Tm := tracker_mods). revert Tm. generalize (collect_tracker T). intros l Tm [|k m] impls A; [discriminate|]. cbn [impls_at] in A.
  destruct (entry k l) as [i|] eqn:E; [|discriminate]. apply entry_in in E. destruct i as [sub im| | | | | | |]; try (destruct m; discriminate).
  destruct (Tm _ _ _ E) as (Fl & ->). destruct m as [|k' m]; [injection A as <-; reflexivity|]. cbn [impls_at] in A.
  destruct (entry k' sub) as [i|] eqn:E'; [|discriminate]. apply entry_in in E'. destruct i as [sub' im'| | | | | | |]; try (destruct m; discriminate).
  exfalso. exact (Fl _ _ _ E').
Qed.
Lemma conversion_only : forall v v', converts items v v' ->
  v' = RV_in (removelast (removelast (enum_of v))) (last (enum_of v) []) v.
Proof.
  intros v v' (m & impls & self & super & name & e' & A & I & S & P & ->).
  assert (Only : exists alias, ~ In alias reserved /\ self = [alias; lit "Rule"] /\ super = [lit "super"; lit "Rule"] /\ super ++ [name] = [lit "super"; lit "Rule"; alias]).
  { destruct m as [|k m]; [discriminate|]. cbn [impls_at] in A. destruct (entry k items) as [i|] eqn:E; [|discriminate].
    assert (Ei := E). apply entry_in in E. unfold all_items in E. apply in_app_or in E. 
    destruct (in_dec (list_eq_dec N.eq_dec) k (map fst (collect_tracker T))) as [K|K].
    - exfalso. unfold all_items in Ei. rewrite entry_app_r in Ei.
      + assert (A' : impls_at (collect_tracker T) (k :: m) = Some impls) by (cbn [impls_at]; rewrite Ei; exact A).
        apply tracker_impls in A'. subst impls. destruct I.
      + rewrite collect_output_all. cbn [map fst In]. cbn [collect_tracker map fst In] in K.
        assert (Ap := tm_ne config top Types).
        intros [H|[H|[]]]; destruct K as [K|[K|[K|[]]]]; subst k; try discriminate; revert H.
        * apply (Ap "wrapper"%string). cbn [In]. tauto.
        * apply (Ap "unicode"%string). cbn [In]. tauto.
        * apply (Ap "generics"%string). cbn [In]. tauto.
    - unfold all_items in Ei. rewrite entry_app_l in Ei by exact K. eapply (impls_found _ _ _ _ Top Fine (k :: m) impls); [|exact I].
      cbn [impls_at]. rewrite Ei. exact A. }
  destruct Only as (alias & Na & -> & -> & Ev). injection Ev as ->.
  destruct S as (_ & vs & R). destruct P as (_ & vs' & R').
  assert (Ne : m <> []) by (intros ->; discriminate).
  assert (Em : enum_of v = m ++ [alias]).
  { cbn [resolve] in R. destruct (teqb alias pest_crate) as [->|_]; [discriminate|].
    destruct (teqb alias (lit "super")) as [->|_]; [exfalso; apply Na; unfold reserved; cbn [map In]; tauto|].
    destruct (module_at items m) as [sub|]; [|discriminate]. cbn [descend] in R.
    destruct (entry alias sub) as [[sub' im| | | | | | |]|]; try discriminate. cbn [descend] in R.
    destruct (entry (lit "Rule") sub') as [[]|]; try discriminate; injection R as <- _; reflexivity. }
  rewrite Em, removelast_last, last_last. f_equal.
  rewrite resolve_super in R' by exact Ne.
  change (match module_at items (removelast m) with Some sub => descend (removelast m) sub [lit "Rule"] | None => None end = Some (T_item e' (R_enum vs'))) in R'.
  destruct (module_at items (removelast m)) as [sub|]; [|discriminate]. cbn [descend] in R'.
  destruct (entry (lit "Rule") sub) as [[]|]; try discriminate; injection R' as <- _; reflexivity.
Qed.
End Rules.
