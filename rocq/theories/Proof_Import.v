(** Loading grammar files with imports: where files are, what imports mean. *)
From Coq Require Import String List NArith ZArith Arith Bool Lia ZifyBool ZifyNat ZifyN.
From Verif Require Import Model_Text Model_Message Model_Unescape Model_Meta Model_Grammar Model_Import
  Spec_Unescape Spec_Message Spec_Grammar Spec_Import Proof_Text Proof_Unescape Proof_Literal Proof_Grammar Proof_Reading.
Import ListNotations.
Open Scope list_scope.

Lemma text_eqb_spec : forall x y, reflect (x = y) (text_eqb x y).
Proof. intros x y. apply iff_reflect. symmetry. apply text_eqb_eq. Qed.
Lemma comp_eqb_spec : forall a b, reflect (a = b) (comp_eqb a b).
Proof.
  intros [| | |x] [| | |y]; cbn [comp_eqb]; try (constructor; congruence).
  destruct (text_eqb_spec x y); constructor; congruence.
Qed.
Lemma path_eqb_spec : forall p q, reflect (p = q) (path_eqb p q).
Proof.
  induction p as [|a p IH]; intros [|b q]; cbn [path_eqb]; try (constructor; congruence).
  destruct (comp_eqb_spec a b) as [->|N]; cbn [andb]; [|constructor; congruence].
  destruct (IH q) as [->|N]; constructor; congruence.
Qed.

(** * Literals with their quotes. *)
Lemma quoted_documented : forall s, inner_str s -> forall r, tolerated (s ++ [34%N]) r -> documented s r.
Proof.
  induction 1 as [|c s N1 N2 I IH|e s ES I IH]; intros r T; cbn [app] in T.
  - inversion T as [|? ? r' _ N _|? ? T' Q|e c s r' E T' Q]; subst; [congruence| |destruct E; discriminate].
    inversion T' as [| | |e c s r' E T'' Q]; subst; [constructor|]. destruct E; discriminate.
  - inversion T as [|? ? r' _ _ T'|? ? T'|e c' s' r' E T' Q]; subst.
    + constructor; auto.
    + congruence.
    + destruct E; cbn [app] in Q; injection Q as <-; congruence.
  - rewrite <- app_assoc in T. inversion T as [Q|c s' r' M1 M2 T' Q|s' r' T' Q|e' c' s' r' E T' Q]; subst.
    + destruct ES; discriminate.
    + exfalso. destruct ES; cbn [app] in Q; injection Q as ->; congruence.
    + exfalso. destruct ES; cbn [app] in Q; discriminate.
    + assert (K : escape hex e c' /\ s' = s ++ [34%N]).
      { destruct ES as [a ca La|h1 h2 H1 H2|t Bt Ft]; destruct E as [b cb Lb|g1 g2 n HC B|u n HC B SC]; cbn [app] in Q.
        - injection Q as <- <-. split; [constructor; assumption|reflexivity].
        - injection Q as <- _. inversion La.
        - injection Q as <- _. inversion La.
        - injection Q as -> _. inversion Lb.
        - injection Q as <- <- <-. split; [|reflexivity]. apply E_byte; [|exact B].
          apply plus_hex_is_hex; [exact HC|]. repeat constructor; assumption.
        - discriminate.
        - injection Q as -> _. inversion Lb.
        - discriminate.
        - injection Q as Q. rewrite <- !app_assoc in Q. cbn [app] in Q.
          apply brace_split in Q; [|apply (plus_hex_no_brace _ _ HC)|apply (is_hex_no_brace _ Ft)].
          destruct Q as (-> & ->). split; [|reflexivity]. apply E_unicode; [|exact B|exact SC]. apply plus_hex_is_hex; assumption. }
      destruct K as (K & ->). apply (D_escape e); [exact K|]. apply IH, T'.
Qed.
Lemma documented_quoted : forall s r, documented s r -> tolerated (s ++ [34%N]) r.
Proof.
  induction 1 as [|c s r N1 N2 D IH|e c s r E D IH]; cbn [app].
  - apply T_quote. constructor.
  - apply T_plain; assumption.
  - rewrite <- app_assoc. apply T_escape; [apply escape_weaken, E|exact IH].
Qed.
Lemma string_content_good : forall s r a b l, documented s r ->
  string_content (mkPPair R_string (34%N :: s ++ [34%N]) a b l) = ok r.
Proof.
  intros s r a b l D. unfold string_content, unescape_or. cbn [pp_str].
  rewrite (proj2 (unescape_iff (34%N :: s ++ [34%N]) r)); [reflexivity|]. apply T_quote, documented_quoted, D.
Qed.
Lemma string_content_bad : forall s a b l, inner_str s -> (forall r, ~ documented s r) ->
  string_content (mkPPair R_string (34%N :: s ++ [34%N]) a b l) = err (lit "invalid string literal") a b.
Proof.
  intros s a b l I D. unfold string_content, unescape_or. cbn [pp_str pp_start pp_end].
  destruct (unescape_ret (34%N :: s ++ [34%N])) as ([r|] & E); rewrite E; [|reflexivity].
  exfalso. apply unescape_iff in E. inversion E as [|? ? ? _ N _|? ? T Q|e c s' r' X T Q]; subst; [congruence| |destruct X; discriminate].
  exact (D _ (quoted_documented s I r T)).
Qed.
Lemma literal_meaning_dec : forall s, inner_str s -> (exists r, documented s r) \/ (forall r, ~ documented s r).
Proof. intros s I. destruct (unescape_literal s I) as [(r & _ & D)|(_ & D)]; [left; exists r; exact D|right; exact D]. Qed.

(** * Paths written as texts. *)
Lemma split_join : forall parts, parts <> [] -> Forall no_slash parts -> split_slash (join_slash parts) = parts.
Proof.
  assert (A : forall p, no_slash p -> split_slash p = [p]).
  { induction p as [|c p IH]; intros F; [reflexivity|]. inversion F as [|? ? NC F']; subst. cbn [split_slash].
    destruct (N.eqb_spec c 47); [contradiction|]. rewrite (IH F'). reflexivity. }
  assert (B : forall p r, no_slash p -> split_slash (p ++ 47%N :: r) = p :: split_slash r).
  { induction p as [|c p IH]; intros r F; [reflexivity|]. inversion F as [|? ? NC F']; subst. cbn [app split_slash].
    destruct (N.eqb_spec c 47); [contradiction|]. rewrite (IH r F'). reflexivity. }
  induction parts as [|p [|q parts] IH]; intros N F; [contradiction| |].
  - inversion F; subst. apply A; assumption.
  - inversion F as [|? ? FP F']; subst. change (join_slash (p :: q :: parts)) with (p ++ 47%N :: join_slash (q :: parts)).
    rewrite (B _ _ FP). f_equal. apply IH; [discriminate|exact F'].
Qed.
Lemma join_split : forall s, split_slash s <> [] /\ Forall no_slash (split_slash s) /\ join_slash (split_slash s) = s.
Proof.
  induction s as [|c s (N & F & J)]; [split; [discriminate|split; [repeat constructor|reflexivity]]|].
  cbn [split_slash]. destruct (N.eqb_spec c 47) as [->|NC].
  - split; [discriminate|]. split; [constructor; [constructor|exact F]|].
    destruct (split_slash s) as [|p l]; [contradiction|]. cbn [join_slash app] in *. rewrite J. reflexivity.
  - destruct (split_slash s) as [|p l]; [contradiction|]. split; [discriminate|].
    pose proof (Forall_inv F) as FP. pose proof (Forall_inv_tail F) as F'. split; [constructor; [constructor; assumption|exact F']|].
    destruct l as [|q l]; cbn [join_slash app] in *; rewrite <- J; reflexivity.
Qed.
Lemma comp_of_names : forall l, part_names l (flat_map comp_of l).
Proof.
  induction l as [|s l IH]; cbn [flat_map]; [constructor|]. destruct s as [|c s]; [apply Parts_empty, IH|].
  unfold comp_of. destruct (text_eqb_spec (c :: s) (lit ".")) as [->|N1]; [apply Parts_dot, IH|].
  destruct (text_eqb_spec (c :: s) (lit "..")) as [->|N2]; [apply Parts_up, IH|]. apply Parts_name; [discriminate|assumption|assumption|exact IH].
Qed.
Lemma names_comp_of : forall l p, part_names l p -> flat_map comp_of l = p.
Proof.
  induction 1 as [|l p H IH|l p H IH|l p H IH|n l p N1 N2 N3 H IH]; cbn [flat_map]; rewrite ?IH; try reflexivity.
  destruct n as [|c n]; [contradiction|]. unfold comp_of.
  destruct (text_eqb_spec (c :: n) (lit ".")); [contradiction|]. destruct (text_eqb_spec (c :: n) (lit "..")); [contradiction|]. reflexivity.
Qed.
Lemma split_nil : forall parts, parts <> [] -> Forall no_slash parts -> split_slash (47%N :: join_slash parts) = [] :: parts.
Proof. intros parts N F. cbn [split_slash]. rewrite N.eqb_refl, split_join by assumption. reflexivity. Qed.
Lemma no_slash_dot : no_slash (lit ".").
Proof. constructor; [discriminate|constructor]. Qed.
Lemma components_written : forall s p, written s p -> components s = p.
Proof.
  intros s p W. destruct W as [parts p N F H|parts p F H|first parts p E D F H]; unfold components.
  - rewrite (split_nil _ N F). destruct parts as [|q parts]; [contradiction|]. f_equal. cbn [flat_map comp_of app]. apply (names_comp_of _ _ H).
  - rewrite split_join by first [discriminate|apply Forall_cons; [exact no_slash_dot|exact F]].
    destruct (text_eqb_spec (lit ".") (lit ".")) as [_|N]; [|contradiction]. change (CurDir :: flat_map comp_of parts = CurDir :: p). f_equal. apply (names_comp_of _ _ H).
  - rewrite split_join by (try discriminate; exact F). destruct first as [|c first].
    + rewrite (E eq_refl) in *. cbn [text_eqb lit]. apply (names_comp_of _ _ H).
    + destruct (text_eqb_spec (c :: first) (lit ".")); [contradiction|]. apply (names_comp_of _ _ H).
Qed.
Lemma written_components : forall s, written s (components s).
Proof.
  intro s. destruct (join_split s) as (N & F & J). unfold components. rewrite <- J at 1. clear J.
  destruct (split_slash s) as [|first parts]; [contradiction|]. clear N. inversion F as [|? ? FF FP]; subst.
  destruct first as [|c first].
  - destruct parts as [|q parts].
    + cbn [text_eqb lit flat_map comp_of app]. apply Written_plain; [reflexivity|discriminate|exact F|apply comp_of_names].
    + change (join_slash ([] :: q :: parts)) with (47%N :: join_slash (q :: parts)).
      apply Written_root; [discriminate|exact FP|]. exact (comp_of_names (q :: parts)).
  - destruct (text_eqb_spec (c :: first) (lit ".")) as [->|N].
    + cbn [lit]. apply Written_dot; [exact FP|apply comp_of_names].
    + apply Written_plain; [discriminate|exact N|exact F|apply comp_of_names].
Qed.

(** * Files named by modules. *)
Lemma rsplit_dot_none : forall n, Forall (fun c => c <> 46%N) n <-> rsplit_dot n = None.
Proof.
  induction n as [|c n IH]; cbn [rsplit_dot]; [split; [reflexivity|constructor]|]. split; intro H.
  - inversion H as [|? ? NC F]; subst. rewrite (proj1 IH F). destruct (N.eqb_spec c 46); [contradiction|reflexivity].
  - destruct (rsplit_dot n) as [(x, y)|]; [discriminate|]. destruct (N.eqb_spec c 46) as [->|NC]; [discriminate|].
    constructor; [exact NC|apply IH; reflexivity].
Qed.
Lemma rsplit_dot_some : forall n x y, rsplit_dot n = Some (x, y) <-> n = x ++ 46%N :: y /\ Forall (fun c => c <> 46%N) y.
Proof.
  induction n as [|c n IH]; intros x y; cbn [rsplit_dot].
  - split; [discriminate|]. intros (E & _). destruct x; discriminate.
  - destruct (rsplit_dot n) as [(x', y')|] eqn:R.
    + split.
      * intro H. injection H as <- <-. destruct (proj1 (IH x' y') eq_refl) as (-> & F). auto.
      * intros (E & F). destruct x as [|d x]; cbn [app] in E; injection E as -> ->.
        -- apply rsplit_dot_none in F. congruence.
        -- pose proof (proj2 (IH x y) (conj eq_refl F)) as Q. injection Q as -> ->. reflexivity.
    + destruct (N.eqb_spec c 46) as [->|NC].
      * split.
        -- intro H. injection H as <- <-. split; [reflexivity|]. apply rsplit_dot_none, R.
        -- intros (E & F). destruct x as [|d x]; cbn [app] in E; injection E as ?; subst; [reflexivity|].
           apply rsplit_dot_none in R. apply Forall_app in R. destruct R as (_ & R). inversion R. congruence.
      * split; [discriminate|]. intros (E & F). destruct x as [|d x]; cbn [app] in E; injection E as ?; subst; [contradiction|].
        apply rsplit_dot_none in R. apply Forall_app in R. destruct R as (_ & R). inversion R. congruence.
Qed.
Lemma pest_no_dot : Forall (fun c => c <> 46%N) (lit "pest").
Proof. repeat constructor; discriminate. Qed.
Lemma extension_pest : forall d, extension d = Some (lit "pest") <-> named_pest d.
Proof.
  intro d. unfold extension, file_name. split.
  - intro H. destruct (rev d) as [|[| | |n] before] eqn:R; try discriminate.
    destruct (rsplit_dot n) as [([|c x], y)|] eqn:S; try discriminate. injection H as ->. apply rsplit_dot_some in S. destruct S as (-> & _).
    exists (rev before), (c :: x). split; [discriminate|]. rewrite <- (rev_involutive d), R. reflexivity.
  - intros (d' & x & N & ->). rewrite rev_unit. destruct x as [|c x]; [contradiction|].
    assert (S : rsplit_dot ((c :: x) ++ lit ".pest") = Some (c :: x, lit "pest")).
    { apply rsplit_dot_some. split; [reflexivity|exact pest_no_dot]. }
    rewrite S. reflexivity.
Qed.
Lemma parent_some : forall d f, f <> RootDir -> parent (d ++ [f]) = Some d.
Proof. intros d f N. unfold parent. rewrite rev_unit, rev_involutive. destruct f; [contradiction|reflexivity..]. Qed.
Lemma parent_inv : forall p d, parent p = Some d -> exists f, f <> RootDir /\ p = d ++ [f].
Proof.
  intros p d H. unfold parent in H. destruct (rev p) as [|f before] eqn:R; [discriminate|].
  assert (Q : p = rev before ++ [f]) by (rewrite <- (rev_involutive p), R; reflexivity).
  destruct f; try discriminate; injection H as <-; eexists; (split; [|exact Q]); discriminate.
Qed.
Definition base_of (root : path) : option path :=
  match parent root with
  | Some dir =>
      Some (match extension dir with
            | Some e => if text_eqb e (lit "pest") then match parent dir with Some d => d | None => dir end else dir
            | None => dir
            end)
  | None => None
  end.
Lemma base_of_spec : forall root d, base_of root = Some d <-> import_base root d.
Proof.
  intros root d. unfold base_of. split.
  - intro H. destruct (parent root) as [dir|] eqn:P; [|discriminate]. injection H as <-.
    destruct (parent_inv _ _ P) as (f & NF & ->). destruct (extension dir) as [e|] eqn:X.
    + destruct (text_eqb_spec e (lit "pest")) as [->|N].
      * apply extension_pest in X. destruct X as (d' & x & NX & ->). rewrite parent_some by discriminate.
        rewrite <- app_assoc. apply Base_up; assumption.
      * apply Base_dir; [exact NF|]. intro Q. apply extension_pest in Q. congruence.
    + apply Base_dir; [exact NF|]. intro Q. apply extension_pest in Q. congruence.
  - intros [dir f NF NP|dir x f NF NX].
    + rewrite (parent_some _ _ NF). f_equal. destruct (extension dir) as [e|] eqn:X; [|reflexivity].
      destruct (text_eqb_spec e (lit "pest")) as [->|N]; [|reflexivity]. exfalso. apply NP, extension_pest, X.
    + change (dir ++ [Normal (x ++ lit ".pest"); f]) with (dir ++ [Normal (x ++ lit ".pest")] ++ [f]). rewrite app_assoc.
      rewrite (parent_some _ _ NF). f_equal.
      rewrite (proj2 (extension_pest (dir ++ [Normal (x ++ lit ".pest")]))) by (exists dir, x; auto).
      destruct (text_eqb_spec (lit "pest") (lit "pest")) as [_|N]; [|contradiction]. rewrite parent_some by discriminate. reflexivity.
Qed.
Lemma fs_path_base : forall root names, mod_path_to_fs_path root names =
  match base_of root with Some d => Ret (with_extension (lit "pest") (fold_left push_section names d)) | None => Panic end.
Proof. intros root names. unfold mod_path_to_fs_path, base_of. destruct (parent root) as [dir|]; reflexivity. Qed.
Lemma with_extension_plain : forall d n, Forall (fun c => c <> 46%N) n ->
  with_extension (lit "pest") (d ++ [Normal n]) = d ++ [Normal (n ++ lit ".pest")].
Proof.
  intros d n F. unfold with_extension. rewrite rev_unit. apply rsplit_dot_none in F. rewrite F. cbn [rev].
  rewrite rev_involutive. reflexivity.
Qed.
Lemma with_extension_up : forall d, with_extension (lit "pest") (d ++ [ParentDir]) = d ++ [ParentDir].
Proof. intro d. unfold with_extension. rewrite rev_unit. reflexivity. Qed.
Lemma plain_no_dot : forall n, plain_name n -> Forall (fun c => c <> 46%N) n.
Proof. intros n (_ & F). eapply Forall_impl; [|exact F]. intros c H ->. unfold name_char in H. lia. Qed.
Lemma location_read : forall names q, location names q -> Forall plain_name names -> forall d,
  with_extension (lit "pest") (fold_left push_section names d) = d ++ q.
Proof.
  induction 1 as [n NS| |n c m ns p ST L IH]; intros F d.
  - cbn [fold_left]. unfold push_section. destruct (text_eqb_spec n (lit "super")); [contradiction|].
    apply with_extension_plain, plain_no_dot. inversion F; assumption.
  - cbn [fold_left]. unfold push_section. destruct (text_eqb_spec (lit "super") (lit "super")) as [_|N]; [|contradiction].
    apply with_extension_up.
  - change (fold_left push_section (n :: m :: ns) d) with (fold_left push_section (m :: ns) (push_section d n)).
    inversion F; subst. rewrite IH by assumption. unfold push_section. rewrite <- app_assoc. f_equal. cbn [app]. f_equal.
    destruct (text_eqb_spec n (lit "super")) as [E|N']; destruct ST as [(E' & ->)|(N & ->)]; try reflexivity; contradiction.
Qed.
Lemma location_total : forall names, names <> [] -> exists q, location names q.
Proof.
  induction names as [|n [|m ns] IH]; intro N; [contradiction| |].
  - destruct (text_eqb_spec n (lit "super")) as [->|NS]; eexists; constructor; assumption.
  - destruct IH as (q & L); [discriminate|].
    destruct (text_eqb_spec n (lit "super")) as [->|NS];
      [exists (ParentDir :: q)|exists (Normal n :: q)]; (apply Loc_more; [|exact L]); [left|right]; auto.
Qed.

(** * Imports. *)
Lemma segments_nonempty : forall l names, segments l names -> names <> [].
Proof. intros l names S. inversion S; discriminate. Qed.
Lemma path_raw_plain : forall node s a b l names, segments l names ->
  parse_path_raw node (mkPPair R_path s a b l) = ok (names, None).
Proof.
  intros node s a b l names S. unfold parse_path_raw. cbn [pp_inner].
  pose proof (path_segments_spec l names S (length l) [] I (le_n _)) as E. rewrite app_nil_r in E. rewrite E. reflexivity.
Qed.
Lemma last_name : forall (names : list text) x, hd_error (rev names) = Some x <-> exists ns, names = ns ++ [x].
Proof.
  intros names x. split.
  - intro H. destruct (rev names) as [|y r] eqn:R; [discriminate|]. injection H as ->. exists (rev r).
    rewrite <- (rev_involutive names), R. reflexivity.
  - intros (ns & ->). rewrite rev_unit. reflexivity.
Qed.
Lemma options_read : forall fs file als alias, opt_file fs file -> opt_alias als alias ->
  import_options (fs ++ als) None None =
  match file with
  | None => ok (None, alias)
  | Some (s, c, d) => let? r := string_content (mkPPair R_string (34%N :: s ++ [34%N]) c d []) in ok (Some r, alias)
  end.
Proof.
  intros fs file als alias F A. destruct F as [|s c d l I]; cbn [app import_options pp_rule].
  - destruct A as [|p R]; cbn [import_options]; [reflexivity|]. rewrite R. reflexivity.
  - change (string_content (mkPPair R_string (34%N :: s ++ [34%N]) c d l)) with (string_content (mkPPair R_string (34%N :: s ++ [34%N]) c d [])).
    destruct (string_content (mkPPair R_string (34%N :: s ++ [34%N]) c d [])) as [[r|e]| |]; cbn [pbind obind]; try reflexivity.
    destruct A as [|p R]; cbn [import_options]; [reflexivity|]. rewrite R. reflexivity.
Qed.
Definition is_pest (names : list text) : bool := match names with first :: _ => text_eqb first (lit "pest") | [] => false end.
Lemma is_pest_spec : forall names, reflect (starts_with_pest names) (is_pest names).
Proof.
  intros [|n ns]; cbn [is_pest]; [constructor; intros (x & E); discriminate|].
  destruct (text_eqb_spec n (lit "pest")) as [->|N]; constructor; [exists ns; reflexivity|]. intros (x & E). injection E as -> _. contradiction.
Qed.
Lemma read_import_eq : forall root rt p names file alias a b, import_syntax p names file alias a b ->
  read_import root rt p =
  let? (fs_path, alias) :=
    match file with
    | None => ok (None, alias)
    | Some (s, c, d) => let? r := string_content (mkPPair R_string (34%N :: s ++ [34%N]) c d []) in ok (Some r, alias)
    end in
  let! alias := match alias with Some alias => Ret alias | None => or_panic (hd_error (rev names)) end in
  let! t :=
    if is_pest names then Ret (To_builtin names)
    else match fs_path with
         | Some s => Ret (To_file (components s))
         | None => let! q := mod_path_to_fs_path root names in Ret (To_file q)
         end in
  ok (alias, t, a, b).
Proof.
  intros root rt p names file alias a b S. destruct S as [s a b sp ap bp l names fs file als alias SG PN F A].
  unfold read_import. cbn [pp_inner next obind pp_start pp_end]. rewrite (path_raw_plain _ _ _ _ _ _ SG). unfold ok at 1. cbn [pbind obind].
  rewrite (options_read _ _ _ _ F A). reflexivity.
Qed.
Definition import_value (x : import_result) : presult (text * target * nat * nat) :=
  match x with
  | Refers x t a b => Ret (inl (x, t, a, b))
  | Misread e => Ret (inr e)
  | No_directory => Panic
  end.
Lemma alias_read : forall names alias x, alias_of names alias x ->
  match alias with Some alias => Ret alias | None => or_panic (hd_error (rev names)) end = Ret x.
Proof.
  intros names alias x [->|(-> & N)]; [reflexivity|]. apply last_name in N. rewrite N. reflexivity.
Qed.
Lemma alias_total : forall names alias, names <> [] -> exists x, alias_of names alias x.
Proof.
  intros names [x|] N; [exists x; left; reflexivity|]. destruct (exists_last N) as (ns & x & ->). exists x. right. split; [reflexivity|]. exists ns. reflexivity.
Qed.
Lemma syntax_names : forall p names file alias a b, import_syntax p names file alias a b -> names <> [] /\ Forall plain_name names.
Proof. intros p names file alias a b S. destruct S. split; [eapply segments_nonempty; eassumption|assumption]. Qed.
Lemma syntax_literal : forall p names s c d alias a b, import_syntax p names (Some (s, c, d)) alias a b -> inner_str s.
Proof. intros p names s c d alias a b S. inversion S as [? ? ? ? ? ? ? ? ? ? ? ? SG PN F A]; subst. inversion F; assumption. Qed.
Lemma import_read : forall root rt p x, import_means root p x -> read_import root rt p = import_value x.
Proof.
  intros root rt p x M. destruct M as [p names s c d alias a b S D|p names file alias a b x S D P A|p names s r c d alias a b x q S P D W A
    |p names alias a b x d q S P B L A|p names alias a b S P B]; rewrite (read_import_eq root rt _ _ _ _ _ _ S).
  - rewrite (string_content_bad _ _ _ _ (syntax_literal _ _ _ _ _ _ _ _ S) D). reflexivity.
  - destruct (is_pest_spec names) as [_|N]; [|contradiction]. destruct file as [((s, c), d)|].
    + destruct (D s c d eq_refl) as (r & DR). rewrite (string_content_good _ _ _ _ _ DR). unfold ok. cbn [pbind obind].
      rewrite (alias_read _ _ _ A). reflexivity.
    + unfold ok. cbn [pbind obind]. rewrite (alias_read _ _ _ A). reflexivity.
  - destruct (is_pest_spec names) as [N|_]; [contradiction|]. rewrite (string_content_good _ _ _ _ _ D). unfold ok. cbn [pbind obind].
    rewrite (alias_read _ _ _ A). cbn [obind]. rewrite (components_written _ _ W). reflexivity.
  - destruct (is_pest_spec names) as [N|_]; [contradiction|]. unfold ok. cbn [pbind obind]. rewrite (alias_read _ _ _ A). cbn [obind].
    rewrite fs_path_base. rewrite (proj2 (base_of_spec root d) B). cbn [obind].
    destruct (syntax_names _ _ _ _ _ _ S) as (_ & PN). rewrite (location_read _ _ L PN). reflexivity.
  - destruct (is_pest_spec names) as [N|_]; [contradiction|]. unfold ok. cbn [pbind obind].
    destruct (syntax_names _ _ _ _ _ _ S) as (NN & _). destruct (alias_total names alias NN) as (x & A). rewrite (alias_read _ _ _ A). cbn [obind].
    rewrite fs_path_base. destruct (base_of root) as [d|] eqn:E; [|reflexivity]. exfalso. apply (B d), base_of_spec, E.
Qed.
Lemma import_total : forall root p names file alias a b, import_syntax p names file alias a b -> exists x, import_means root p x.
Proof.
  intros root p names file alias a b S. destruct (syntax_names _ _ _ _ _ _ S) as (NN & _). destruct (alias_total names alias NN) as (x & A).
  assert (D : (exists s c d, file = Some (s, c, d) /\ forall r, ~ documented s r) \/ (forall s c d, file = Some (s, c, d) -> exists r, documented s r)).
  { destruct file as [((s, c), d)|]; [|right; discriminate]. destruct (literal_meaning_dec s (syntax_literal _ _ _ _ _ _ _ _ S)) as [(r & D)|D].
    - right. intros s' c' d' E. injection E as <- <- <-. exists r. exact D.
    - left. exists s, c, d. auto. }
  destruct D as [(s & c & d & -> & D)|D]; [eexists; eapply IM_literal; eassumption|].
  destruct (is_pest_spec names) as [P|P]; [eexists; eapply IM_builtin; eassumption|].
  destruct file as [((s, c), d)|].
  - destruct (D s c d eq_refl) as (r & DR). eexists. eapply IM_file; [eassumption|assumption|eassumption|apply written_components|eassumption].
  - destruct (base_of root) as [d|] eqn:E.
    + destruct (location_total names NN) as (q & L). eexists. eapply IM_beside; [eassumption|assumption|apply base_of_spec, E|eassumption|eassumption].
    + eexists. eapply IM_nowhere; [eassumption|assumption|]. intros d B. apply base_of_spec in B. congruence.
Qed.
Lemma import_det : forall root p x y, import_means root p x -> import_means root p y -> x = y.
Proof.
  intros root p x y X Y. apply (import_read root []) in X. apply (import_read root []) in Y. rewrite X in Y.
  destruct x, y; cbn [import_value] in Y; try discriminate; [injection Y as -> -> -> ->|injection Y as ->|]; reflexivity.
Qed.
