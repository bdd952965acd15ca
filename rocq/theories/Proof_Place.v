(** Where the emitted items are. *)
From Coq Require Import String List NArith ZArith Arith Bool Lia.
From Verif Require Import Model_Text Model_Message Model_Meta Model_Import Model_Tracker Model_Node Model_Generator Model_Output
  Spec_Text Spec_Peg Spec_Grammar_Peg Spec_Occur Spec_Generator Spec_Rust Proof_Text Proof_Emit Proof_Box Proof_Process Proof_Names.
Import ListNotations.
Open Scope list_scope.

Lemma module_at_app : forall a b items, module_at items (a ++ b) = match module_at items a with Some sub => module_at sub b | None => None end.
Proof.
  induction a as [|k a IH]; intros b items; [reflexivity|]. cbn [app module_at]. destruct (entry k items) as [[]|]; try reflexivity. apply IH.
Qed.

(** The items of the module that holds the types. *)
Definition child_item (rm : option text) (no : text * output) : text * ritem :=
  (fst no, R_mod (fst (collect_output rm (snd no))) (snd (collect_output rm (snd no)))).
Definition sub_items (rm : option text) (o : output) : list (text * ritem) :=
  [(lit "__OptionalTrivia", R_alias (trivia_type (o_optional o))); (lit "__MandatoryTrivia", R_alias (trivia_type (o_mandatory o)))] ++
  map (child_item rm) (o_modules o) ++ map (fun s => (gs_name s, R_struct s)) (o_content o).
Lemma collect_output_eq : forall rm o, exists impls,
  fst (collect_output rm o) = [(lit "Rule", R_enum (o_variants o)); (types_mod rm, R_mod (sub_items rm o) impls)].
Proof.
  intros rm [c a b m v]. eexists. cbn [collect_output fst o_variants]. unfold sub_items. cbn [o_optional o_mandatory o_modules o_content].
  repeat f_equal. induction m as [|(n, o) m IH]; [reflexivity|]. rewrite IH. cbn [map child_item fst snd].
  unfold child_item at 2. cbn [fst snd]. destruct (collect_output rm o) as (it, im). reflexivity.
Qed.

Section Place.
Variable config : gconfig.
Variable fuel : nat.
Variable unicode : list text.
Variable T : gtracker.
Variable top : gmodule.
Variable o_top : output.
Notation rm := (rules_mod config).
Notation tm := (types_mod rm).
Definition all_items : list (text * ritem) := fst (collect_output rm o_top) ++ collect_tracker T.
Notation items := all_items.

Hypothesis Types : fine_types_mod tm top.
Hypothesis Props : distinct_properties unicode.
Hypothesis Track : good_tracker T.

Lemma tm_apart : ~ In tm (map lit ["Rule"; "wrapper"; "unicode"; "generics"; "super"; "::pest3"]%string).
Proof.
  destruct Types as [->|(N & _)]; [|exact N]. intro I. cbn [map In] in I. decompose [or] I; try contradiction; discriminate.
Qed.
Lemma tm_ne : forall s, In s ["Rule"; "wrapper"; "unicode"; "generics"; "super"; "::pest3"]%string -> tm <> lit s.
Proof. intros s I E. apply tm_apart. rewrite E. apply in_map, I. Qed.

Definition emitted (mp : list text) (depth : nat) (g : gmodule) (coll : list (text * mnode)) : Prop :=
  exists o, Made config fuel unicode T depth g o coll /\ module_at items mp = Some (sub_items rm o) /\
    length mp = S (2 * depth) /\ located tm top mp g /\ fine unicode g.

Lemma emitted_top : forall coll, Made config fuel unicode T 0 top o_top coll -> fine unicode top -> emitted [tm] 0 top coll.
Proof.
  intros coll M F. exists o_top. split; [exact M|]. split; [|split; [reflexivity|split; [constructor|exact F]]].
  cbn [module_at]. unfold all_items. destruct (collect_output_eq rm o_top) as (impls & E). rewrite E.
  rewrite entry_app_l.
  - rewrite entry_skip by (apply tm_ne; left; reflexivity). rewrite entry_cons by (intros []). reflexivity.
  - cbn [collect_tracker map fst In]. intros [H|[H|[H|[]]]]; symmetry in H; revert H.
    + apply (tm_ne "wrapper"). cbn [In]. tauto.
    + apply (tm_ne "unicode"). cbn [In]. tauto.
    + apply (tm_ne "generics"). cbn [In]. tauto.
Qed.
Lemma top_apart : apart (fst (collect_output rm o_top)).
Proof.
  intros k I J. destruct (collect_output_eq rm o_top) as (impls & E). rewrite E in J. cbn [map fst In] in J.
  destruct J as [<-|[<-|[]]].
  - cbn [In] in I. decompose [or] I; try contradiction; discriminate.
  - cbn [In] in I. decompose [or] I; try contradiction;
      match goal with X : _ = tm |- _ => symmetry in X; revert X; apply tm_ne; cbn [In]; tauto end.
Qed.

Lemma content_names : forall coll depth reach rules structs,
  Forall2 (fun r s => exists i, body_made fuel unicode T coll depth r i /\ s = create_rule config reach depth r i) rules structs ->
  map gs_name structs = map pr_name rules.
Proof.
  intros coll depth reach rules structs F. induction F as [|r s rules structs (i & _ & ->) F IH]; [reflexivity|].
  cbn [map]. rewrite IH. reflexivity.
Qed.
Lemma child_keys : forall l, map fst (map (child_item rm) l) = map fst l.
Proof. intro l. rewrite map_map. reflexivity. Qed.
Lemma struct_keys : forall l, map fst (map (fun s => (gs_name s, R_struct s)) l) = map gs_name l.
Proof. intro l. rewrite map_map. reflexivity. Qed.

(** The names in a module differ. *)
Lemma sub_items_nodup : forall depth g o coll, Made config fuel unicode T depth g o coll -> fine unicode g -> NoDup (map fst (sub_items rm o)).
Proof.
  intros depth g o coll M F. destruct M as [depth g o coll reach _ Fl Fl' Bl Rl K Nd Nm Ct _ _ _].
  inversion F as [g0 Na Rs _ Rn _ _ _ _ _]. subst g0.
  assert (NF : NoDup (map fst (o_modules o) ++ map gs_name (o_content o))).
  { rewrite (content_names _ _ _ _ _ Ct). apply nodup_app_intro; [exact Nm| |].
    - clear - Nd. induction (map import_alias (g_imports g)) as [|x l IH]; [exact Nd|]. apply IH. inversion Nd. assumption.
    - intros x I J. apply in_map_iff in J. destruct J as ((a, o') & E & J). cbn in E. subst a.
      apply Fl' in J. destruct J as (g' & J). apply (in_map import_alias) in J. cbn in J.
      clear - Nd I J. apply in_split in J. destruct J as (l1 & l2 & E). rewrite E, <- app_assoc in Nd. cbn in Nd.
      apply NoDup_remove_2 in Nd. apply Nd. rewrite app_assoc. apply in_or_app. right. exact I. }
  assert (Res : forall x, In x (map fst (o_modules o) ++ map gs_name (o_content o)) -> ~ In x reserved).
  { intros x I. apply in_app_or in I. destruct I as [I|I].
    - apply in_map_iff in I. destruct I as ((a, o') & E & I). cbn in E. subst a. apply Fl' in I. destruct I as (g' & I).
      apply Rs in I. exact I.
    - rewrite (content_names _ _ _ _ _ Ct) in I. apply in_map_iff in I. destruct I as (r & <- & I). apply plain_in in I. apply Rn, I. }
  unfold sub_items. rewrite map_app, map_app, child_keys, struct_keys. cbn [map fst app]. constructor; [|constructor; [|exact NF]].
  - intros [E|I]; [discriminate|]. apply (Res _ I). unfold reserved. cbn [map In]. tauto.
  - intro I. apply (Res _ I). unfold reserved. cbn [map In]. tauto.
Qed.

Lemma types_rules : forall mp g alias g', located tm top mp g -> In (File alias g') (g_imports g) -> tm = lit "rules".
Proof.
  intros mp g alias g' L. revert alias g'. induction L as [|mp g a g1 L IH I]; intros alias g' J.
  - destruct Types as [E|(_ & N)]; [exact E|]. exfalso. eapply N, J.
  - eapply IH, I.
Qed.

(** An imported grammar is emitted below. *)
Lemma emitted_child : forall mp depth g coll alias g', emitted mp depth g coll -> In (File alias g') (g_imports g) ->
  exists coll', emitted (mp ++ [alias; lit "rules"]) (S depth) g' coll' /\ lookup alias coll = Some (M_collection coll') /\
    exists sub its impls impls' sub', module_at items mp = Some sub /\ entry alias sub = Some (R_mod its impls) /\
      entry (lit "rules") its = Some (R_mod sub' impls') /\ module_at items (mp ++ [alias; lit "rules"]) = Some sub'.
Proof.
  intros mp depth g coll alias g' (o & M & At & Len & Loc & F) I.
  assert (Tm := types_rules _ _ _ _ Loc I). assert (Nd := sub_items_nodup _ _ _ _ M F).
  destruct M as [depth g o coll reach _ Fl _ _ _ _ _ _ _ _ _ _].
  destruct (Fl _ _ I) as (o' & coll' & Io & L & M'). inversion F as [g0 _ _ _ _ _ _ _ _ Fi]. subst g0.
  destruct (collect_output_eq rm o') as (impls' & Eo). rewrite Tm in Eo.
  assert (En : entry alias (sub_items rm o) = Some (R_mod (fst (collect_output rm o')) (snd (collect_output rm o')))).
  { apply entry_unique; [exact Nd|]. unfold sub_items. apply in_or_app. right. apply in_or_app. left.
    apply (in_map (child_item rm)) in Io. exact Io. }
  assert (Er : entry (lit "rules") (fst (collect_output rm o')) = Some (R_mod (sub_items rm o') impls')).
  { rewrite Eo. rewrite entry_skip by discriminate. rewrite entry_cons by (intros []). reflexivity. }
  assert (At' : module_at items (mp ++ [alias; lit "rules"]) = Some (sub_items rm o')).
  { rewrite module_at_app, At. cbn [module_at]. rewrite En, Er. reflexivity. }
  exists coll'. split; [|split; [exact L|]].
  - exists o'. split; [exact M'|]. split; [exact At'|]. split; [rewrite app_length, Len; cbn; lia|]. split; [|eapply Fi, I].
    rewrite <- Tm. eapply Loc_file; eassumption.
  - exists (sub_items rm o), (fst (collect_output rm o')), (snd (collect_output rm o')), impls', (sub_items rm o'). auto.
Qed.

(** The struct of a rule. *)
Definition struct_made (mp : list text) (depth : nat) (g : gmodule) (coll : list (text * mnode)) (r : parse_rule) (s : gstruct) : Prop :=
  exists reach i, collect_reachability (g_rules g) = Ret reach /\ body_made fuel unicode T coll depth r i /\
    s = create_rule config reach depth r i /\
    exists sub, module_at items mp = Some sub /\ entry (pr_name r) sub = Some (R_struct s).
Lemma forall2_left : forall {A B : Type} (P : A -> B -> Prop) l l' x, Forall2 P l l' -> In x l -> exists y, In y l' /\ P x y.
Proof.
  intros A B P l l' x F. induction F as [|a b l l' H F IH]; intro I; [destruct I|].
  destruct I as [->|I]; [exists b; split; [left; reflexivity|exact H]|]. destruct (IH I) as (y & J & Q). exists y. split; [right; exact J|exact Q].
Qed.
Lemma forall2_right : forall {A B : Type} (P : A -> B -> Prop) l l' y, Forall2 P l l' -> In y l' -> exists x, In x l /\ P x y.
Proof.
  intros A B P l l' x F. induction F as [|a b l l' H F IH]; intro I; [destruct I|].
  destruct I as [->|I]; [exists a; split; [left; reflexivity|exact H]|]. destruct (IH I) as (y & J & Q). exists y. split; [right; exact J|exact Q].
Qed.
Lemma emitted_struct : forall mp depth g coll r, emitted mp depth g coll -> In r (g_rules g) -> ~ is_trivia_rule r ->
  exists s, struct_made mp depth g coll r s.
Proof.
  intros mp depth g coll r (o & M & At & Len & Loc & F) I N. assert (Nd := sub_items_nodup _ _ _ _ M F).
  destruct M as [depth g o coll reach Re _ _ _ _ _ _ _ Ct _ _ _].
  destruct (forall2_left _ _ _ r Ct) as (s & J & i & B & Es). { apply plain_in. split; assumption. }
  exists s, reach, i. split; [exact Re|]. split; [exact B|]. split; [exact Es|]. exists (sub_items rm o). split; [exact At|].
  apply entry_unique; [exact Nd|]. unfold sub_items. apply in_or_app. right. apply in_or_app. right.
  apply (in_map (fun s => (gs_name s, R_struct s))) in J. rewrite Es in J at 1. exact J.
Qed.

(** Trivia. *)
Lemma emitted_trivia : forall mp depth g coll t name r, emitted mp depth g coll -> trivia_name t = Some name -> last_rule g name r ->
  exists i, body_made fuel unicode T coll depth r i /\
    exists sub, module_at items mp = Some sub /\
      entry (match t with TriviaOptional => lit "__OptionalTrivia" | _ => lit "__MandatoryTrivia" end) sub = Some (R_alias (i_type i)).
Proof.
  intros mp depth g coll t name r (o & M & At & Len & Loc & F) Tn La. assert (Nd := sub_items_nodup _ _ _ _ M F).
  destruct M as [depth g o coll reach Re _ _ _ _ _ _ _ _ Op Ma _].
  destruct t; [discriminate| |].
  - destruct (Op _ _ Tn La) as (i & B & E). exists i. split; [exact B|]. exists (sub_items rm o). split; [exact At|].
    apply entry_unique; [exact Nd|]. unfold sub_items. rewrite E. left. reflexivity.
  - destruct (Ma _ _ Tn La) as (i & B & E). exists i. split; [exact B|]. exists (sub_items rm o). split; [exact At|].
    apply entry_unique; [exact Nd|]. unfold sub_items. rewrite E. right. left. reflexivity.
Qed.

(** What a path in the module system stands for. *)
Definition stands_for (mp p : list text) (x : entity) (n : mnode) : Prop :=
  match x with
  | E_builtin q => builtin_node unicode q n
  | E_rule g' r =>
      n = M_generics (RG_rule (length (pr_args r))) /\ In r (g_rules g') /\ ~ is_trivia_rule r /\ last p [] = pr_name r /\
      exists mp' depth' coll' s, emitted mp' depth' g' coll' /\ struct_made mp' depth' g' coll' r s /\
        exists sub, module_at items mp = Some sub /\ descend mp sub (module_path p ++ [last p []]) = Some (T_item mp' (R_struct s))
  end.

Lemma module_path_cons : forall k k' rest, module_path (k :: k' :: rest) = k :: lit "rules" :: module_path (k' :: rest).
Proof. reflexivity. Qed.

Lemma own_resolves : forall g p x, own_name unicode g p x -> forall mp depth coll, emitted mp depth g coll ->
  exists n, m_resolve_node (M_collection coll) p = inl n /\ stands_for mp p x n.
Proof.
  intros g p x O. induction O as [g r I N|g alias q rest I B|g alias g' rest x I O IH]; intros mp depth coll E.
  - destruct (emitted_struct _ _ _ _ _ E I N) as (s & S). assert (E' := E).
    destruct E as (o & M & At & Len & Loc & F). destruct M as [depth g o coll reach Re _ _ _ Rl _ _ _ _ _ _ _].
    exists (M_generics (RG_rule (length (pr_args r)))). split.
    + cbn [m_resolve_node m_child]. rewrite (Rl _ I N). reflexivity.
    + split; [reflexivity|]. split; [exact I|]. split; [exact N|]. split; [reflexivity|].
      exists mp, depth, coll, s. split; [exact E'|]. split; [exact S|].
      destruct S as (re & i & _ & _ & _ & sub & Am & En). exists sub. split; [exact Am|].
      cbn [module_path removelast flat_map app last descend]. rewrite En. reflexivity.
  - destruct E as (o & M & At & Len & Loc & F). destruct M as [depth g o coll reach Re _ _ Bl _ _ _ _ _ _ _ _].
    destruct (Bl _ _ I) as (n & Rn & L). rewrite global_pest, teqb_refl in Rn.
    apply builtin_spec in B. destruct B as (n' & B).
    exists n'. split; [|exact B]. cbn [m_resolve_node m_child]. rewrite L.
    apply (builtin_node_found _ _ _ Props) in B. rewrite m_descend_app, Rn in B. exact B.
  - destruct (emitted_child _ _ _ _ _ _ E I) as (coll' & E' & L & sub & its & impls & impls' & sub' & At & En & Er & At').
    destruct (IH _ _ _ E') as (n & Rn & S). exists n.
    assert (Nr : rest <> []) by (intros ->; discriminate Rn). split.
    + cbn [m_resolve_node m_child]. rewrite L. rewrite <- m_resolve_descend by exact Nr. exact Rn.
    + destruct x as [q|g1 r]; [exact S|]. destruct S as (-> & Ir & Nt & La & mp' & d' & c' & s & Em & St & sub1 & At1 & De).
      assert (Last : last (alias :: rest) [] = last rest []) by (destruct rest; [congruence|reflexivity]).
      split; [reflexivity|]. split; [exact Ir|]. split; [exact Nt|]. split; [rewrite Last; exact La|].
      exists mp', d', c', s. split; [exact Em|]. split; [exact St|]. exists sub. split; [exact At|].
      rewrite Last. destruct rest as [|k rest]; [congruence|]. rewrite module_path_cons. cbn [app]. cbn [descend].
      rewrite En. rewrite Er. rewrite At' in At1. injection At1 as <-.
      rewrite <- app_assoc. cbn [app].
      destruct (module_path (k :: rest) ++ [last (k :: rest) []]) as [|y l] eqn:Em'; [destruct (module_path (k :: rest)); discriminate|].
      exact De.
Qed.

(** The module system finds nothing else. *)
Lemma own_found : forall p g mp depth coll n, emitted mp depth g coll -> m_resolve_node (M_collection coll) p = inl n ->
  (forall l, n <> M_collection l) -> exists x, own_name unicode g p x.
Proof.
  induction p as [|k rest IH]; intros g mp depth coll n E R N; [discriminate|].
  cbn [m_resolve_node m_child] in R. destruct (lookup k coll) as [c|] eqn:L; [|discriminate].
  assert (K : In k (map import_alias (g_imports g) ++ map pr_name (plain_rules (g_rules g)))).
  { destruct E as (o & M & _). destruct M as [depth g o coll reach _ _ _ _ _ K _ _ _ _ _ _]. apply K. congruence. }
  apply in_app_or in K. destruct K as [K|K]; apply in_map_iff in K.
  - destruct K as ([a p|a g'] & Ek & I); cbn in Ek; subst a.
    + destruct E as (o & M & _ & _ & _ & F). inversion F as [g0 _ _ Bu _ _ _ _ _ _]. subst g0.
      destruct M as [depth g o coll reach _ _ _ Bl _ _ _ _ _ _ _ _].
      destruct (Bl _ _ I) as (m & Rm & L'). rewrite L in L'. injection L' as ->.
      destruct (Bu _ _ I) as (q & -> & _). rewrite global_pest, teqb_refl in Rm.
      exists (E_builtin (q ++ rest)). apply O_builtin; [exact I|]. apply builtin_spec. exists n.
      assert (D : m_descend (pest_node unicode) (q ++ rest) = inl n) by (rewrite m_descend_app, Rm; exact R).
      apply pest_cases in D. destruct D as [(_ & l & ->)|D]; [exfalso; eapply N; reflexivity|exact D].
    + destruct (emitted_child _ _ _ _ _ _ E I) as (coll' & E' & L' & _). rewrite L in L'. injection L' as ->.
      destruct rest as [|k' rest]; [injection R as <-; exfalso; eapply N; reflexivity|].
      destruct (IH _ _ _ _ _ E' R N) as (x & O). exists x. eapply O_file; eassumption.
  - destruct K as (r & <- & I). apply plain_in in I. destruct I as (I & Nt).
    destruct E as (o & M & _). destruct M as [depth g o coll reach _ _ _ _ Rl _ _ _ _ _ _ _].
    rewrite (Rl _ I Nt) in L. injection L as <-.
    destruct rest; [|discriminate]. eexists. apply O_rule; assumption.
Qed.

(** Names are unique. *)
Lemma nodup_map : forall {A B : Type} (f : A -> B) l x y, NoDup (map f l) -> In x l -> In y l -> f x = f y -> x = y.
Proof.
  intros A B f. induction l as [|a l IH]; intros x y D I J E; [destruct I|]. inversion_clear D as [|? ? N D'].
  destruct I as [->|I], J as [->|J]; try reflexivity.
  - exfalso. apply N. rewrite E. apply in_map, J.
  - exfalso. apply N. rewrite <- E. apply in_map, I.
  - apply IH; assumption.
Qed.
Lemma nodup_app_l : forall {A : Type} (a b : list A), NoDup (a ++ b) -> NoDup a.
Proof.
  induction a as [|x a IH]; intros b D; [constructor|]. inversion_clear D as [|? ? N D']. constructor; [|eapply IH; eassumption].
  intro I. apply N. apply in_or_app. left. exact I.
Qed.
Lemma nodup_app_r : forall {A : Type} (a b : list A), NoDup (a ++ b) -> NoDup b.
Proof. induction a as [|x a IH]; intros b D; [exact D|]. apply IH. inversion D. assumption. Qed.
Lemma nodup_app_no : forall {A : Type} (a b : list A) x, NoDup (a ++ b) -> In x a -> In x b -> False.
Proof.
  induction a as [|y a IH]; intros b x D I J; [destruct I|]. inversion_clear D as [|? ? N D'].
  destruct I as [->|I]; [apply N, in_or_app; right; exact J|eapply IH; eassumption].
Qed.

Lemma own_unique : forall g p x, own_name unicode g p x -> forall y mp depth coll, emitted mp depth g coll ->
  own_name unicode g p y -> x = y.
Proof.
  intros g p x O. induction O as [g r I N|g alias q rest I B|g alias g' rest x I O IH]; intros y mp depth coll E O';
    assert (Nd : NoDup (map import_alias (g_imports g) ++ map pr_name (plain_rules (g_rules g))))
      by (destruct E as (o & M & _); destruct M; assumption).
  - inversion O' as [g0 r' I' N' Eg Ep|g0 alias q rest I' B' Eg Ep|g0 alias g' rest y0 I' O1 Eg Ep]; subst.
    + f_equal. eapply (nodup_map pr_name (plain_rules (g_rules g))); [eapply nodup_app_r, Nd| | |symmetry; exact H || congruence].
      * apply plain_in. split; assumption.
      * apply plain_in. split; assumption.
    + exfalso. eapply (nodup_app_no _ _ (pr_name r) Nd); [apply (in_map import_alias) in I'; exact I'|].
      apply (in_map pr_name), plain_in. split; assumption.
    + inversion O1.
  - inversion O' as [g0 r' I' N' Eg Ep|g0 alias' q' rest' I' B' Eg Ep|g0 alias' g' rest' y0 I' O1 Eg Ep]; subst.
    + exfalso. eapply (nodup_app_no _ _ (pr_name r') Nd); [apply (in_map import_alias) in I; exact I|].
      apply (in_map pr_name), plain_in. split; assumption.
    + assert (X : Builtin alias (lit "pest" :: q) = Builtin alias (lit "pest" :: q')).
      { eapply (nodup_map import_alias); [eapply nodup_app_l, Nd|exact I|exact I'|reflexivity]. }
      injection X as ->. reflexivity.
    + assert (X : Builtin alias (lit "pest" :: q) = File alias g').
      { eapply (nodup_map import_alias); [eapply nodup_app_l, Nd|exact I|exact I'|reflexivity]. }
      discriminate.
  - inversion O' as [g0 r' I' N' Eg Ep|g0 alias' q' rest' I' B' Eg Ep|g0 alias' g1 rest' y0 I' O1 Eg Ep]; subst.
    + inversion O.
    + assert (X : File alias g' = Builtin alias (lit "pest" :: q')).
      { eapply (nodup_map import_alias); [eapply nodup_app_l, Nd|exact I|exact I'|reflexivity]. }
      discriminate.
    + assert (X : File alias g' = File alias g1).
      { eapply (nodup_map import_alias); [eapply nodup_app_l, Nd|exact I|exact I'|reflexivity]. }
      injection X as <-. destruct (emitted_child _ _ _ _ _ _ E I) as (coll' & E' & _). eapply IH; eassumption.
Qed.

(** Paths in a grammar. *)
Lemma global_cases : forall p n, m_resolve_node (make_global unicode) p = inl n ->
  exists q, p = lit "pest" :: q /\ m_descend (pest_node unicode) q = inl n.
Proof.
  intros [|k p] n H; [discriminate|]. rewrite global_pest in H. destruct (teqb k (lit "pest")) as [->|]; [|discriminate].
  exists p. split; [reflexivity|exact H].
Qed.
Lemma names_resolve : forall g p x mp depth coll, emitted mp depth g coll -> names unicode g p x ->
  exists n, sys_resolve_node (mkSys coll (make_global unicode)) p = inl n /\ stands_for mp p x n.
Proof.
  intros g p x mp depth coll E N. unfold sys_resolve_node. cbn [ms_pest ms_root]. destruct N as [p B|p x O N].
  - apply builtin_spec in B. destruct B as (n & B). exists n. rewrite global_pest, teqb_refl, (builtin_node_found _ _ _ Props B).
    split; [reflexivity|exact B].
  - destruct (m_resolve_node (make_global unicode) p) as [n|] eqn:R.
    + exfalso. apply global_cases in R. destruct R as (q & -> & D). apply pest_cases in D.
      destruct (N q eq_refl) as (N1 & N2). destruct D as [(G & _)|B]; [exact (N2 G)|]. apply N1, builtin_spec. exists n. exact B.
    + destruct (own_resolves _ _ _ O _ _ _ E) as (n & R' & S). exists n. split; assumption.
Qed.
Lemma resolved_names : forall g p mp depth coll n, emitted mp depth g coll ->
  sys_resolve_node (mkSys coll (make_global unicode)) p = inl n -> (forall l, n <> M_collection l) ->
  exists x, names unicode g p x.
Proof.
  intros g p mp depth coll n E R N. unfold sys_resolve_node in R. cbn [ms_pest ms_root] in R.
  destruct (m_resolve_node (make_global unicode) p) as [m|] eqn:G.
  - injection R as ->. apply global_cases in G. destruct G as (q & -> & D). apply pest_cases in D.
    destruct D as [(_ & l & ->)|B]; [exfalso; eapply N; reflexivity|]. exists (E_builtin q). apply N_builtin, builtin_spec. exists n. exact B.
  - destruct (own_found _ _ _ _ _ _ E R N) as (x & O). exists x. apply N_own; [exact O|].
    intros q ->. rewrite global_pest, teqb_refl in G. split; intro B.
    + apply builtin_spec in B. destruct B as (m1 & B). rewrite (builtin_node_found _ _ _ Props B) in G. discriminate.
    + destruct (group_found unicode q B) as (l & D). congruence.
Qed.
Lemma names_unique : forall g p x y mp depth coll, emitted mp depth g coll -> names unicode g p x -> names unicode g p y -> x = y.
Proof.
  intros g p x y mp depth coll E N N'. destruct N as [p B|p x O N]; inversion N' as [p' B' Ep|p' y' O' N1 Ep]; subst.
  - reflexivity.
  - exfalso. destruct (N1 p eq_refl) as (X & _). exact (X B).
  - exfalso. destruct (N _ eq_refl) as (X & _). exact (X B').
  - eapply own_unique; eassumption.
Qed.
End Place.
