(** The attributes of the derive macro and the sources of grammars are read as they should. *)
From Coq Require Import String List NArith Arith Bool Lia.
From Verif Require Import Model_Text Model_Message Model_Meta Model_Import Model_Generator Model_Output Model_Inline Model_Derive
  Spec_Import Spec_Derive Proof_Text Proof_Import Proof_Load.
Import ListNotations.
Open Scope list_scope.

Lemma is_named_spec : forall name a, reflect (named name a) (is_named name a).
Proof.
  intros name [[n|] m]; unfold is_named, named; cbn [at_name].
  - destruct (text_eqb_spec n (lit name)) as [->|N]; constructor; congruence.
  - constructor. discriminate.
Qed.
Lemma named_inj : forall a n m, named n a -> named m a -> lit n = lit m.
Proof. unfold named. intros a n m H K. congruence. Qed.

(** * Attributes. *)
Section Attributes.
Variable rust_ident : text -> bool.

Record reads (l : list attribute) (st : list source * dconfig) : Prop := mkReads {
  rd_sources : sources_of l (fst st);
  rd_pair : flag "no_pair" l (no_pair (snd st));
  rd_span : flag "no_span" l (no_span (snd st));
  rd_warn : flag "no_warnings" l (no_warnings (snd st));
  rd_box : flag "box_all_rules" l (box_rules_only_if_needed (d_config (snd st)));
  rd_get : no_getter (d_config (snd st)) = false;
  rd_mod : setting "rules_mod" l (rules_mod (d_config (snd st))) }.

Lemma flag_other : forall name l a b, flag name l b -> ~ named name a -> flag name (l ++ [a]) b.
Proof.
  intros name l a b [H|l' a' r b' -> S F] N.
  - apply Flag_unset, Forall_app. auto.
  - eapply Flag_set; [rewrite <- app_assoc; reflexivity|exact S|]. apply Forall_app. auto.
Qed.
Lemma flag_last : forall name l a b, sets_flag name a b -> flag name (l ++ [a]) b.
Proof. intros. eapply Flag_set; [reflexivity|eassumption|constructor]. Qed.
Lemma setting_other : forall name l a b, setting name l b -> ~ named name a -> setting name (l ++ [a]) b.
Proof.
  intros name l a b [H|l' a' r s -> S M F] N.
  - apply Setting_none, Forall_app. auto.
  - eapply Setting_some; [rewrite <- app_assoc; reflexivity|exact S|exact M|]. apply Forall_app. auto.
Qed.
Lemma sources_app : forall l r l' r', sources_of l r -> sources_of l' r' -> sources_of (l ++ l') (r ++ r').
Proof. intros l r l' r' H K. induction H; cbn [app]; try exact K; [eapply Sources_file|eapply Sources_inline|eapply Sources_other]; eauto. Qed.
Lemma sources_other : forall l r a, sources_of l r -> ~ named "grammar" a -> ~ named "grammar_inline" a -> sources_of (l ++ [a]) r.
Proof. intros. rewrite <- (app_nil_r r). apply sources_app; [assumption|]. apply Sources_other; try assumption. constructor. Qed.

Lemma last_split : forall (A : Type) (P : A -> Prop) l a r l' a' r', l ++ a :: r = l' ++ a' :: r' -> P a -> P a' ->
  Forall (fun x => ~ P x) r -> Forall (fun x => ~ P x) r' -> a = a'.
Proof.
  intros A P l. induction l as [|x l IH]; intros a r l' a' r' E Pa Pa' F F'; destruct l' as [|x' l']; cbn [app] in E; injection E as -> E.
  - reflexivity.
  - subst r. apply Forall_app in F. destruct F as (_ & F). inversion F; contradiction.
  - subst r'. apply Forall_app in F'. destruct F' as (_ & F'). inversion F'; contradiction.
  - eauto.
Qed.
Lemma sets_named : forall name a b, sets_flag name a b -> named name a.
Proof. intros name a b [a' N _|a' b' N _]; exact N. Qed.
Lemma flag_det : forall name l b b', flag name l b -> flag name l b' -> b = b'.
Proof.
  intros name l b b' [H|l1 a r b1 E S F] [H'|l2 a' r' b2 E' S' F'].
  - reflexivity.
  - subst l. apply Forall_app in H. destruct H as (_ & H). inversion H. apply sets_named in S'. contradiction.
  - subst l. apply Forall_app in H'. destruct H' as (_ & H). inversion H. apply sets_named in S. contradiction.
  - subst l. assert (a = a') as <- by (eapply (last_split _ (named name)); eauto using sets_named).
    destruct S, S'; congruence.
Qed.
Lemma setting_det : forall name l b b', setting name l b -> setting name l b' -> b = b'.
Proof.
  intros name l b b' [H|l1 a r b1 E S M F] [H'|l2 a' r' b2 E' S' M' F'].
  - reflexivity.
  - subst l. apply Forall_app in H. destruct H as (_ & H). inversion H. contradiction.
  - subst l. apply Forall_app in H'. destruct H' as (_ & H). inversion H. contradiction.
  - subst l. assert (a = a') as <- by (eapply (last_split _ (named name)); eauto). congruence.
Qed.
Lemma sources_det : forall l r r', sources_of l r -> sources_of l r' -> r = r'.
Proof.
  intros l r r' H. revert r'. induction H as [|a s l r N M H IH|a s l r N M H IH|a l r N N' H IH]; intros r' K; inversion K; subst; try reflexivity; try contradiction;
    try (f_equal; [congruence|auto]); auto; exfalso.
  - pose proof (named_inj _ _ _ N H2). discriminate.
  - pose proof (named_inj _ _ _ N H2). discriminate.
Qed.

Lemma flag_case : forall name a, (exists b, sets_flag name a b /\ get_bool a = Ret b) \/ (~ (exists b, sets_flag name a b) /\ (named name a -> get_bool a = Panic)).
Proof.
  intros name a. destruct (is_named_spec name a) as [N|N].
  - destruct a as [n [|[| |]|]] eqn:E.
    + left. exists true. split; [apply Sets_alone; [exact N|reflexivity]|reflexivity].
    + right. split; [|intros; reflexivity]. intros (b & H). inversion H; discriminate.
    + left. exists b. split; [apply Sets_value; [exact N|reflexivity]|reflexivity].
    + right. split; [|intros; reflexivity]. intros (b & H). inversion H; discriminate.
    + right. split; [|intros; reflexivity]. intros (b & H). inversion H; discriminate.
  - right. split; [|contradiction]. intros (b & H). apply sets_named in H. contradiction.
Qed.
Lemma string_case : forall a, (exists s, at_meta a = M_value (V_str s) /\ get_string a = Ret s) \/ ((forall s, at_meta a <> M_value (V_str s)) /\ get_string a = Panic).
Proof. intros [n [|[s| |]|]]; unfold get_string; cbn [at_meta]; [right|left; eauto|right|right|right]; (split; [intros; discriminate|reflexivity]). Qed.

Ltac differ := match goal with H : named _ ?a |- ~ named _ ?a => let K := fresh in intro K; pose proof (named_inj _ _ _ H K); discriminate end.
Ltac vacuous := match goal with
  | H : named _ ?a, K : named _ ?a |- _ => exfalso; pose proof (named_inj _ _ _ H K); discriminate
  end.
Lemma step : forall l st a, reads l st ->
  (accepted rust_ident a /\ exists st', read_attribute rust_ident a st = Ret st' /\ reads (l ++ [a]) st') \/
  (~ accepted rust_ident a /\ read_attribute rust_ident a st = Panic).
Proof.
  intros l (sources, c) a [R1 R2 R3 R4 R5 R6 R7]. cbn [fst snd] in *. unfold read_attribute.
  destruct (is_named_spec "grammar" a) as [N|N1].
  { destruct (string_case a) as [(s & M & E)|(M & E)]; rewrite E; cbn [obind]; [left|right].
    - split.
      + constructor; [intros _; exists s; exact M|intros n I K; cbn in I; repeat (destruct I as [<-|I]; [vacuous|]); contradiction|intro; vacuous].
      + eexists. split; [reflexivity|]. constructor; cbn [fst snd]; try (apply flag_other; [assumption|differ]); try (apply setting_other; [assumption|differ]); try assumption.
        apply sources_app; [exact R1|]. apply Sources_file; [exact N|exact M|constructor].
    - split; [|reflexivity]. intros [A _ _]. destruct (A (or_introl N)) as (s & K). exact (M s K). }
  destruct (is_named_spec "grammar_inline" a) as [N|N2].
  { destruct (string_case a) as [(s & M & E)|(M & E)]; rewrite E; cbn [obind]; [left|right].
    - split.
      + constructor; [intros _; exists s; exact M|intros n I K; cbn in I; repeat (destruct I as [<-|I]; [vacuous|]); contradiction|intro; vacuous].
      + eexists. split; [reflexivity|]. constructor; cbn [fst snd]; try (apply flag_other; [assumption|differ]); try (apply setting_other; [assumption|differ]); try assumption.
        apply sources_app; [exact R1|]. apply Sources_inline; [exact N|exact M|constructor].
    - split; [|reflexivity]. intros [A _ _]. destruct (A (or_intror N)) as (s & K). exact (M s K). }
  destruct (is_named_spec "no_pair" a) as [N|N3].
  { destruct (flag_case "no_pair" a) as [(b & M & E)|(M & E)]; [rewrite E|rewrite (E N)]; cbn [obind]; [left|right].
    - split.
      + constructor; [intros [|]; contradiction|intros n I K; cbn in I; repeat (destruct I as [<-|I]; [first [vacuous|eexists; exact M]|]); contradiction|intro; vacuous].
      + eexists. split; [reflexivity|]. constructor; cbn [fst snd no_pair no_span no_warnings d_config];
          try (apply flag_last, M); try (apply flag_other; [assumption|differ]); try (apply setting_other; [assumption|differ]); try assumption. apply sources_other; assumption.
    - split; [|reflexivity]. intros [_ A _]. apply M. apply (A "no_pair"%string); [cbn; auto|exact N]. }
  destruct (is_named_spec "no_span" a) as [N|N4].
  { destruct (flag_case "no_span" a) as [(b & M & E)|(M & E)]; [rewrite E|rewrite (E N)]; cbn [obind]; [left|right].
    - split.
      + constructor; [intros [|]; contradiction|intros n I K; cbn in I; repeat (destruct I as [<-|I]; [first [vacuous|eexists; exact M]|]); contradiction|intro; vacuous].
      + eexists. split; [reflexivity|]. constructor; cbn [fst snd no_pair no_span no_warnings d_config];
          try (apply flag_last, M); try (apply flag_other; [assumption|differ]); try (apply setting_other; [assumption|differ]); try assumption. apply sources_other; assumption.
    - split; [|reflexivity]. intros [_ A _]. apply M. apply (A "no_span"%string); [cbn; auto|exact N]. }
  destruct (is_named_spec "no_warnings" a) as [N|N5].
  { destruct (flag_case "no_warnings" a) as [(b & M & E)|(M & E)]; [rewrite E|rewrite (E N)]; cbn [obind]; [left|right].
    - split.
      + constructor; [intros [|]; contradiction|intros n I K; cbn in I; repeat (destruct I as [<-|I]; [first [vacuous|eexists; exact M]|]); contradiction|intro; vacuous].
      + eexists. split; [reflexivity|]. constructor; cbn [fst snd no_pair no_span no_warnings d_config];
          try (apply flag_last, M); try (apply flag_other; [assumption|differ]); try (apply setting_other; [assumption|differ]); try assumption. apply sources_other; assumption.
    - split; [|reflexivity]. intros [_ A _]. apply M. apply (A "no_warnings"%string); [cbn; auto|exact N]. }
  destruct (is_named_spec "box_all_rules" a) as [N|N6].
  { destruct (flag_case "box_all_rules" a) as [(b & M & E)|(M & E)]; [rewrite E|rewrite (E N)]; cbn [obind]; [left|right].
    - split.
      + constructor; [intros [|]; contradiction|intros n I K; cbn in I; repeat (destruct I as [<-|I]; [first [vacuous|eexists; exact M]|]); contradiction|intro; vacuous].
      + eexists. split; [reflexivity|]. constructor; cbn [fst snd no_pair no_span no_warnings d_config box_rules_only_if_needed no_getter rules_mod];
          try (apply flag_last, M); try (apply flag_other; [assumption|differ]); try (apply setting_other; [assumption|differ]); try assumption. apply sources_other; assumption.
    - split; [|reflexivity]. intros [_ A _]. apply M. apply (A "box_all_rules"%string); [cbn; auto|exact N]. }
  destruct (is_named_spec "rules_mod" a) as [N|N7].
  { destruct (string_case a) as [(s & M & E)|(M & E)]; rewrite E; cbn [obind].
    - assert (B : (s <> [] /\ rust_ident s = true) \/ ~ (s <> [] /\ rust_ident s = true)).
      { destruct s; [right; intros (H & _); apply H; reflexivity|]. destruct (rust_ident _); [left; split; [discriminate|reflexivity]|right; intros (_ & H); discriminate]. }
      destruct B as [(B & I)|B]; [left|right].
      + split.
        * constructor; [intros [|]; contradiction|intros n J K; cbn in J; repeat (destruct J as [<-|J]; [vacuous|]); contradiction|intros _; exists s; auto].
        * destruct s as [|x s]; [destruct (B eq_refl)|]. rewrite I. eexists. split; [reflexivity|].
          constructor; cbn [fst snd no_pair no_span no_warnings d_config box_rules_only_if_needed no_getter rules_mod];
            try (apply flag_other; [assumption|differ]); try assumption; [apply sources_other; assumption|]. eapply Setting_some; [reflexivity|exact N|exact M|constructor].
      + split.
        * intros [_ _ A]. destruct (A N) as (s' & K & A'). apply B. congruence.
        * destruct s as [|x s]; [reflexivity|]. destruct (rust_ident (x :: s)) eqn:I; [|reflexivity]. destruct B. split; [discriminate|reflexivity].
    - right. split; [|reflexivity]. intros [_ _ A]. destruct (A N) as (s & K & _). exact (M s K). }
  left. split.
  - constructor; [intros [|]; contradiction|intros n I K; cbn in I; repeat (destruct I as [<-|I]; [contradiction|]); contradiction|contradiction].
  - eexists. split; [reflexivity|]. constructor; cbn [fst snd]; try (apply flag_other; assumption); try (apply setting_other; assumption); try assumption. apply sources_other; assumption.
Qed.
Lemma reads_nil : reads [] ([], default_config).
Proof. constructor; cbn; try reflexivity; try (apply Flag_unset; constructor); try (apply Setting_none; constructor). constructor. Qed.
Lemma read_all : forall r l st, reads l st ->
  (Forall (accepted rust_ident) r /\ exists st', read_attributes rust_ident r st = Ret st' /\ reads (l ++ r) st') \/
  (~ Forall (accepted rust_ident) r /\ read_attributes rust_ident r st = Panic).
Proof.
  induction r as [|a r IH]; intros l st R.
  - left. split; [constructor|]. exists st. rewrite app_nil_r. split; [reflexivity|exact R].
  - cbn [read_attributes]. destruct (step l st a R) as [(A & st' & E & R')|(A & E)]; rewrite E; cbn [obind].
    + destruct (IH _ _ R') as [(F & st2 & E2 & R2)|(F & E2)]; rewrite E2; [left|right].
      * split; [constructor; assumption|]. exists st2. rewrite <- app_assoc in R2. split; [reflexivity|exact R2].
      * split; [|reflexivity]. intro G. inversion G. contradiction.
    + right. split; [|reflexivity]. intro G. inversion G. contradiction.
Qed.
Lemma reads_det : forall l st st', reads l st -> reads l st' -> st = st'.
Proof.
  intros l (s, [p n w [b g m]]) (s', [p' n' w' [b' g' m']]) [A1 A2 A3 A4 A5 A6 A7] [B1 B2 B3 B4 B5 B6 B7].
  cbn [fst snd no_pair no_span no_warnings d_config box_rules_only_if_needed no_getter rules_mod] in *.
  assert (s = s') as <- by (eapply sources_det; eassumption). assert (p = p') as <- by (eapply flag_det; eassumption).
  assert (n = n') as <- by (eapply flag_det; eassumption). assert (w = w') as <- by (eapply flag_det; eassumption).
  assert (b = b') as <- by (eapply flag_det; eassumption). assert (m = m') as <- by (eapply setting_det; eassumption). congruence.
Qed.
Lemma attributes_read : forall attrs st, parse_derive rust_ident attrs = Ret st <-> Forall (accepted rust_ident) attrs /\ reads attrs st /\ fst st <> [].
Proof.
  intros attrs st. unfold parse_derive. destruct (read_all attrs [] _ reads_nil) as [(F & (s, c) & E & R)|(F & E)]; rewrite E; cbn [obind app] in *.
  - split.
    + intro H. destruct s as [|x s]; [discriminate|]. injection H as <-. split; [exact F|]. split; [exact R|discriminate].
    + intros (_ & R' & N). rewrite <- (reads_det _ _ _ R R') in *. cbn [fst] in N. destruct s; [destruct (N eq_refl)|reflexivity].
  - split; [discriminate|]. intros (G & _). contradiction.
Qed.
Lemma attributes_panic : forall attrs, parse_derive rust_ident attrs = Panic <-> ~ Forall (accepted rust_ident) attrs \/ sources_of attrs [].
Proof.
  intro attrs. unfold parse_derive. destruct (read_all attrs [] _ reads_nil) as [(F & (s, c) & E & R)|(F & E)]; rewrite E; cbn [obind app] in *.
  - destruct R as [R _ _ _ _ _ _]. cbn [fst] in R. split.
    + intro H. right. destruct s; [exact R|discriminate].
    + intros [N|H]; [contradiction|]. rewrite (sources_det _ _ _ R H). reflexivity.
  - split; auto.
Qed.
Lemma attributes_end : forall attrs, parse_derive rust_ident attrs <> OutOfFuel.
Proof.
  intro attrs. unfold parse_derive. destruct (read_all attrs [] _ reads_nil) as [(F & (s, c) & E & R)|(F & E)]; rewrite E; cbn [obind]; [destruct s; discriminate|discriminate].
Qed.
Lemma read_app : forall l r st, read_attributes rust_ident (l ++ r) st = let! st := read_attributes rust_ident l st in read_attributes rust_ident r st.
Proof.
  induction l as [|a l IH]; intros r st; [reflexivity|]. cbn [app read_attributes]. destruct (read_attribute rust_ident a st); [|reflexivity|reflexivity]. cbn [obind]. apply IH.
Qed.
Lemma ignored : forall l a r, (forall n, In n meaningful -> ~ named n a) -> parse_derive rust_ident (l ++ a :: r) = parse_derive rust_ident (l ++ r).
Proof.
  intros l a r H. unfold parse_derive. rewrite !read_app. destruct (read_attributes rust_ident l ([], default_config)) as [st| |]; [|reflexivity|reflexivity].
  cbn [obind read_attributes].
  assert (E : read_attribute rust_ident a st = Ret st).
  { unfold read_attribute. destruct st as (s, c).
    repeat match goal with |- context [is_named ?n a] => destruct (is_named_spec n a) as [N|_]; [exfalso; revert N; apply H; cbn; tauto|] end. reflexivity. }
  rewrite E. reflexivity.
Qed.
End Attributes.

(** * Grammars. *)
Lemma under_join : forall base s, under base s (join base (components s)).
Proof.
  intros base s. pose proof (written_components s) as W. destruct (components s) as [|[| | |n] q] eqn:E; cbn [join].
  - apply Under_plain; [exact W|discriminate|discriminate].
  - apply Under_absolute, W.
  - destruct base as [|b base]; [apply Under_nothing; [exact W|reflexivity]|apply Under_dot; [exact W|discriminate]].
  - apply Under_plain; [exact W|discriminate|discriminate].
  - apply Under_plain; [exact W|discriminate|discriminate].
Qed.
Lemma join_under : forall base s q, under base s q -> q = join base (components s).
Proof.
  intros base s q [s' q' W|s' q' W N|s' q' W E|s' q' W A B]; rewrite (components_written _ _ W).
  - reflexivity.
  - destruct base; [destruct (N eq_refl)|reflexivity].
  - rewrite E. reflexivity.
  - destruct q' as [|[| | |n] q']; try reflexivity; [destruct (A eq_refl)|destruct (B eq_refl)].
Qed.
Lemma file_name_spec : forall q, (exists d n, q = d ++ [Normal n] /\ file_name q = Some n) \/ ((forall d n, q <> d ++ [Normal n]) /\ file_name q = None).
Proof.
  intro q. destruct q as [|c q _] using rev_ind; [right; split; [intros [|? ?] n; discriminate|reflexivity]|].
  unfold file_name. rewrite rev_app_distr. cbn [rev app].
  destruct c as [| | |n]; try (right; split; [intros d m E; apply app_inj_tail in E; destruct E; discriminate|reflexivity]).
  left. exists q, n. split; reflexivity.
Qed.

Section Sources.
Variable manifest_dir : option text.
Variable path_exists : path -> bool.
Variable read_file : path -> text + text.
Notation M := (manifest manifest_dir).
Notation gives := (source_text M path_exists read_file).

Definition place (s : text) : path :=
  if path_exists (join M (components s)) then join M (components s) else join (join M (components (lit "src/"))) (components s).
Lemma in_src : join M (components (lit "src/")) = M ++ [Normal (lit "src")].
Proof. replace (components (lit "src/")) with [Normal (lit "src")] by (vm_compute; reflexivity). reflexivity. Qed.
Lemma found_place : forall s q, found M path_exists s q <-> q = place s.
Proof.
  intros s q. unfold place. rewrite in_src. split.
  - intros [q' U E|q0 q' U E U']; [apply join_under in U; subst q'; rewrite E; reflexivity|]. apply join_under in U, U'. subst q0. rewrite E. exact U'.
  - intros ->. destruct (path_exists (join M (components s))) eqn:E.
    + apply Found_here; [apply under_join|exact E].
    + eapply Found_src; [apply under_join|exact E|apply under_join].
Qed.
Lemma collect_one : forall s d, collect_source manifest_dir path_exists read_file s = Ret d <-> gives s d.
Proof.
  intros [s|s] d; cbn [collect_source].
  - cbv zeta. fold (place s). destruct (file_name_spec (place s)) as [(p & n & E & F)|(N & F)]; rewrite F.
    + destruct (read_file (place s)) as [c|e] eqn:R.
      * split.
        -- intro H. injection H as <-. rewrite E in *. apply ST_file; [apply found_place; auto|exact R].
        -- intro H. inversion H as [s' p' n' c' P R'|]; subst. apply found_place in P. rewrite P in *. rewrite R in R'. injection R' as <-. reflexivity.
      * split; [discriminate|]. intro H. inversion H as [s' p' n' c' P R'|]; subst. apply found_place in P. rewrite P in *. congruence.
    + split; [discriminate|]. intro H. inversion H as [s' p' n' c' P R'|]; subst. apply found_place in P. symmetry in P. destruct (N _ _ P).
  - split; [intro H; injection H as <-; constructor|intro H; inversion H; reflexivity].
Qed.
Lemma collect_end : forall s, collect_source manifest_dir path_exists read_file s <> OutOfFuel.
Proof.
  intros [s|s]; cbn [collect_source]; [|discriminate]. cbv zeta. destruct (file_name _); [|discriminate]. destruct (read_file _); discriminate.
Qed.
Lemma collect_all : forall l ds, collect_data manifest_dir path_exists read_file l = Ret ds <-> Forall2 gives l ds.
Proof.
  induction l as [|s l IH]; intro ds; cbn [collect_data].
  - split; [intro H; injection H as <-; constructor|intro H; inversion H; reflexivity].
  - split.
    + intro H. destruct (collect_source manifest_dir path_exists read_file s) as [d| |] eqn:E; try discriminate. cbn [obind] in H.
      destruct (collect_data manifest_dir path_exists read_file l) as [r| |] eqn:E2; try discriminate. cbn [obind] in H. injection H as <-.
      constructor; [apply collect_one, E|apply IH; reflexivity].
    + intro H. inversion H as [|s' d l' r G F]; subst. apply collect_one in G. rewrite G. cbn [obind]. apply IH in F. rewrite F. reflexivity.
Qed.
Lemma collect_panic : forall l, collect_data manifest_dir path_exists read_file l = Panic <-> exists s, In s l /\ forall d, ~ gives s d.
Proof.
  induction l as [|s l IH]; cbn [collect_data].
  - split; [discriminate|intros (s & [] & _)].
  - destruct (collect_source manifest_dir path_exists read_file s) as [d| |] eqn:E; cbn [obind].
    + destruct (collect_data manifest_dir path_exists read_file l) as [r| |] eqn:E2; cbn [obind].
      * split; [discriminate|]. intros (x & [<-|I] & N); [destruct (N d); apply collect_one, E|]. assert (@Ret (list (text * option path)) r = Panic) by (apply IH; eauto). discriminate.
      * split; [|reflexivity]. intros _. destruct (proj1 IH eq_refl) as (x & I & N). exists x. split; [right; exact I|exact N].
      * split; [discriminate|]. intros (x & [<-|I] & N); [destruct (N d); apply collect_one, E|]. assert (@OutOfFuel (list (text * option path)) = Panic) by (apply IH; eauto). discriminate.
    + split; [|reflexivity]. intros _. exists s. split; [left; reflexivity|]. intros d H. apply collect_one in H. congruence.
    + destruct (collect_end s E).
Qed.
End Sources.
