(** The types that references stand for. *)
From Coq Require Import String List NArith ZArith Arith Bool Lia.
From Verif Require Import Model_Text Model_Message Model_Meta Model_Import Model_Tracker Model_Node Model_Generator Model_Output
  Spec_Text Spec_Peg Spec_Grammar_Peg Spec_Occur Spec_Generator Spec_Rust Proof_Text Proof_Emit Proof_Box Proof_Process Proof_Names
  Proof_Place.
Import ListNotations.
Open Scope list_scope.

Definition usage_of (args : option processed_args) : usage :=
  match args with None => U_alone | Some (PA_call l) => U_call (length l) | Some (PA_slice _) => U_slice end.

(** The names at the end of paths. *)
Lemma last_cons : forall (x : text) l d, l <> [] -> last (x :: l) d = last l d.
Proof. intros x [|y l] d H; [congruence|reflexivity]. Qed.
Lemma last_app : forall (a b : list text) d, b <> [] -> last (a ++ b) d = last b d.
Proof.
  induction a as [|x a IH]; intros b d H; [reflexivity|]. cbn [app]. rewrite last_cons; [apply IH, H|].
  destruct a; [exact H|discriminate].
Qed.
Lemma builtin_nonempty : forall unicode q, builtin unicode q -> q <> [].
Proof. intros unicode q H. inversion H; discriminate. Qed.
Lemma builtin_group_no : forall unicode q, builtin_group q -> builtin unicode q -> False.
Proof.
  intros unicode q [-> | [-> | ->]] B; inversion B as [x P C|x I|x I|x i I]; subst.
  - inversion C.
  - cbn [map In] in *. decompose [or] I; try contradiction; discriminate.
  - inversion C.
  - cbn [map In] in *. decompose [or] I; try contradiction; discriminate.
Qed.
Lemma builtin_more : forall unicode q rest, builtin unicode q -> builtin unicode (q ++ rest) -> rest = [].
Proof.
  intros unicode q rest B B'. destruct rest as [|y rest]; [reflexivity|]. exfalso.
  assert (L : forall q, builtin unicode q -> (length q = 1 \/ length q = 2) /\ (length q = 2 -> hd [] q = lit "stack" \/ hd [] q = lit "unicode")).
  { clear. intros q B. inversion B; subst; cbn [length hd]; split; auto; intro; try lia. }
  destruct (L _ B) as (L1 & _), (L _ B') as (L2 & L3). rewrite app_length in L2, L3. cbn [length] in L2, L3.
  destruct q as [|x [|x' q]]; cbn [length] in *; try lia. cbn [app hd] in L3.
  assert (E : x = lit "stack" \/ x = lit "unicode") by (apply L3; lia).
  eapply builtin_group_no; [|exact B]. destruct E as [-> | ->]; [right; left|right; right]; reflexivity.
Qed.
Lemma own_last : forall unicode g p q, own_name unicode g p (E_builtin q) -> fine unicode g ->
  last p [] = last q [] \/ exists x, q = [lit "unicode"; x].
Proof.
  intros unicode g p q O. remember (E_builtin q) as x eqn:E. revert q E.
  induction O as [g r I N|g alias p rest I B|g alias g' rest x I O IH]; intros q E F.
  - discriminate.
  - injection E as <-. inversion F as [g0 _ _ Bu _ _ _ _ _ _]. subst g0. destruct (Bu _ _ I) as (q & Eq & Q). injection Eq as <-.
    destruct Q as [G|(B' & Q)].
    + left. destruct rest as [|y rest]; [exfalso; rewrite app_nil_r in B; exact (builtin_group_no _ _ G B)|].
      rewrite last_app by discriminate. reflexivity.
    + assert (X := builtin_more _ _ _ B' B). subst rest. rewrite app_nil_r. cbn [last].
      destruct Q as [->|Q]; [left; reflexivity|right; exact Q].
  - inversion F as [g0 _ _ _ _ _ _ _ _ Fi]. subst g0. destruct (IH q E (Fi _ _ I)) as [L|L]; [left|right; exact L].
    rewrite last_cons; [exact L|]. intros ->. inversion O.
Qed.
Lemma names_last : forall unicode g p q, names unicode g p (E_builtin q) -> fine unicode g ->
  last p [] = last q [] \/ exists x, q = [lit "unicode"; x].
Proof.
  intros unicode g p q N F. inversion N as [p' B|p' x O N']; subst.
  - left. apply last_cons, (builtin_nonempty _ _ B).
  - eapply own_last; eassumption.
Qed.

(** A reference is accepted exactly if its arguments suit the entity. *)
Definition entity_node (unicode : list text) (x : entity) (n : mnode) : Prop :=
  match x with
  | E_builtin q => builtin_node unicode q n
  | E_rule _ r => n = M_generics (RG_rule (length (pr_args r)))
  end.
Lemma get_takes : forall unicode x n root name r args, entity_node unicode x n ->
  ((exists i, m_get n root name r args = inl i) <-> takes x (usage_of args)).
Proof.
  intros unicode [q|g' r0] n root name r args S.
  - assert (Q : forall b : bool, (exists i, m_get (M_generics (RG_builtin (Some b) None None)) root name r args = inl i) <-> args = None).
    { intro b. cbn [m_get rg_call]. destruct args as [[l|range]|]; split; intro H; try discriminate; try (destruct H; discriminate); [reflexivity|eexists; reflexivity]. }
    assert (A : usage_of args = U_alone <-> args = None) by (destruct args as [[l|range]|]; split; intro; try discriminate; reflexivity).
    assert (Al : forall q0, q0 <> [lit "stack"; lit "push"] -> q0 <> [lit "stack"; lit "peek"] -> (forall x, q0 <> [lit "unicode"; x]) ->
      (takes (E_builtin q0) (usage_of args) <-> args = None)).
    { intros q0 N1 N2 N3. rewrite <- A. split; [|intros ->; constructor; exact N1].
      intro X. inversion X; subst; try reflexivity; try congruence. }
    destruct S as [x I| |x I| | |u I].
    + rewrite Al by (intros; discriminate). apply Q.
    + cbn [m_get rg_call]. destruct args as [[l|range]|]; cbn [usage_of]; split; intro H.
      * destruct H; discriminate.
      * inversion H.
      * constructor.
      * destruct (r_end range); eexists; reflexivity.
      * constructor. discriminate.
      * eexists. reflexivity.
    + rewrite Al by (intros; try discriminate; cbn [map In] in I; intro E; injection E as ->; decompose [or] I; try contradiction; discriminate). apply Q.
    + rewrite Al by (intros; discriminate). apply Q.
    + cbn [m_get rg_call]. destruct args as [[[|a [|b l]]|range]|]; cbn [usage_of length Nat.eqb]; split; intro H; try (destruct H; discriminate); try (inversion H; fail).
      * apply Takes_push.
      * eexists. reflexivity.
      * inversion H. congruence.
    + cbn [m_get]. destruct args as [[[|a l]|range]|]; cbn [usage_of length]; split; intro H; try (destruct H; discriminate); try (inversion H; fail).
      * constructor.
      * eexists. reflexivity.
      * constructor. discriminate.
      * eexists. reflexivity.
  - cbn in S. subst n. cbn [m_get rg_call]. remember (length (pr_args r0)) as argc eqn:En. symmetry in En.
    assert (Ti : forall k, takes (E_rule g' r0) (U_call k) <-> argc = k).
    { intro k. split; intro X; [inversion X; congruence|]. rewrite <- X, <- En. constructor. }
    destruct argc as [|argc].
    + assert (E : pr_args r0 = []) by (destruct (pr_args r0); [reflexivity|discriminate]).
      destruct args as [[[|a l]|range]|]; cbn [usage_of length].
      * rewrite Ti. split; [reflexivity|eexists; reflexivity].
      * rewrite Ti. split; [intros (i & H); discriminate|discriminate].
      * split; [intros (i & H); discriminate|]. intro X; inversion X.
      * split; [intros _; constructor; exact E|eexists; reflexivity].
    + destruct args as [[l|range]|]; cbn [usage_of].
      * rewrite Ti. destruct (Nat.eqb (S argc) (length l)) eqn:Q.
        -- apply Nat.eqb_eq in Q. rewrite Q. split; [reflexivity|eexists; reflexivity].
        -- apply Nat.eqb_neq in Q. split; [intros (i & H); discriminate|congruence].
      * split; [intros (i & H); discriminate|]. intro X; inversion X.
      * split; [intros (i & H); discriminate|]. intro X. inversion X as [g1 r1 X' Eg| | | | |]. subst r1. rewrite X' in En. discriminate.
Qed.

Section Resolve.
Variable config : gconfig.
Variable fuel : nat.
Variable unicode : list text.
Variable T : gtracker.
Variable top : gmodule.
Variable o_top : output.
Notation rm := (rules_mod config).
Notation tm := (types_mod rm).
Notation items := (all_items config T o_top).
Hypothesis Types : fine_types_mod tm top.
Hypothesis Props : distinct_properties unicode.
Hypothesis Track : good_tracker T.
Notation emitted := (emitted config fuel unicode T top o_top).
Notation stands_for := (stands_for config fuel unicode T top o_top).

Lemma stands_leaf : forall mp p x n, stands_for mp p x n -> forall l, n <> M_collection l.
Proof. intros mp p [q|g r] n S l; [eapply builtin_node_leaf, S|]. destruct S as (-> & _). discriminate. Qed.

Lemma stands_entity : forall mp p x n, stands_for mp p x n -> entity_node unicode x n.
Proof. intros mp p [q|g r] n S; [exact S|]. apply S. Qed.

(** Resolution in the module system is [names] and [takes]. *)
Lemma names_nonempty : forall g p x, names unicode g p x -> p <> [].
Proof. intros g p x N. inversion N as [|p' x' O]; subst; [discriminate|]. inversion O; discriminate. Qed.
Lemma resolve_iff : forall mp depth g coll p args root, emitted mp depth g coll ->
  ((exists i, sys_resolve (mkSys coll (make_global unicode)) (mkRuleRef p args) root = inl i) <->
   exists x, names unicode g p x /\ takes x (usage_of args)).
Proof.
  intros mp depth g coll p args root E. unfold sys_resolve. cbn [rr_path rr_args]. split.
  - intros (i & H). destruct (sys_resolve_node _ p) as [n|] eqn:R; [|discriminate].
    assert (L : forall l, n <> M_collection l) by (intros l ->; destruct p; discriminate).
    destruct (resolved_names config fuel unicode T top o_top Types Props _ _ _ _ _ _ E R L) as (x & N).
    destruct (names_resolve config fuel unicode T top o_top Types Props _ _ _ _ _ _ E N) as (n' & R' & S). rewrite R in R'. injection R' as <-.
    exists x. split; [exact N|]. eapply get_takes; [eapply stands_entity, S|]. destruct p; [discriminate|]. eexists. exact H.
  - intros (x & N & Tk). destruct (names_resolve config fuel unicode T top o_top Types Props _ _ _ _ _ _ E N) as (n & R & S). rewrite R.
    assert (X := names_nonempty _ _ _ N). destruct p as [|k p]; [congruence|]. eapply get_takes; [eapply stands_entity, S|exact Tk].
Qed.

(** Paths from the root. *)
Lemma resolve_super : forall mp r, mp <> [] -> resolve items mp (lit "super" :: r) = resolve items (removelast mp) r.
Proof. intros [|k mp] r H; [congruence|reflexivity]. Qed.
Lemma resolve_root : forall depth mp r, length mp = S (2 * depth) -> resolve items mp (root_of depth ++ r) = resolve items [] r.
Proof.
  induction depth as [|depth IH]; intros mp r L.
  - destruct mp as [|a [|b mp]]; try discriminate. reflexivity.
  - change (root_of (S depth) ++ r) with (lit "super" :: lit "super" :: root_of depth ++ r).
    assert (exists a b l, mp = l ++ [b; a]) as (a & b & l & ->).
    { destruct (exists_last (l := mp)) as (l & a & ->); [intros ->; discriminate|]. rewrite app_length in L. cbn in L.
      destruct (exists_last (l := l)) as (l' & b & ->); [intros ->; cbn in L; lia|].
      exists a, b, l'. rewrite <- app_assoc. reflexivity. }
    rewrite resolve_super by (destruct l; discriminate).
    replace (removelast (l ++ [b; a])) with (l ++ [b]) by (rewrite removelast_app by discriminate; reflexivity).
    rewrite resolve_super by (destruct l; discriminate). rewrite removelast_last. apply IH.
    rewrite app_length in L. cbn in L. lia.
Qed.
Lemma resolve_generic : forall depth mp k, length mp = S (2 * depth) ->
  resolve items mp (root_of depth ++ [generics_mod; k]) =
  match entry k (generics_items T) with
  | Some (R_use p) => Some (T_library (p ++ []))
  | Some i => Some (T_item [generics_mod] i)
  | None => None
  end.
Proof.
  intros depth mp k L. rewrite resolve_root by exact L. unfold resolve.
  change (text_eqb generics_mod pest_crate) with false. change (text_eqb generics_mod (lit "super")) with false.
  cbn [module_at descend]. cbv iota. unfold all_items. rewrite (entry_generics_mod _ T (top_apart config top o_top Types)). cbn [descend app].
  destruct (entry k (generics_items T)) as [[]|]; reflexivity.
Qed.
Lemma resolve_template : forall depth mp k, length mp = S (2 * depth) -> In k template_names ->
  resolve items mp (root_of depth ++ [generics_mod; k]) = Some (T_library (template_path k)).
Proof. intros depth mp k L I. rewrite resolve_generic by exact L. rewrite entry_template by exact I. reflexivity. Qed.
Lemma resolve_property : forall depth mp u, length mp = S (2 * depth) ->
  resolve items mp (root_of depth ++ [lit "unicode"; u]) = Some (T_library [pest_crate; lit "typed"; lit "unicode"; u]).
Proof.
  intros depth mp u L. rewrite resolve_root by exact L. unfold resolve.
  change (text_eqb (lit "unicode") pest_crate) with false. change (text_eqb (lit "unicode") (lit "super")) with false.
  cbn [module_at descend]. cbv iota. unfold all_items. rewrite (entry_unicode_mod _ T (top_apart config top o_top Types)). reflexivity.
Qed.
Lemma resolve_wrapper : forall depth mp w s, length mp = S (2 * depth) -> In (w, s) (gt_wrappers T) ->
  resolve items mp (root_of depth ++ [wrapper_mod; w]) = Some (T_item [wrapper_mod] (R_string s)).
Proof.
  intros depth mp w s L I. rewrite resolve_root by exact L. unfold resolve.
  change (text_eqb wrapper_mod pest_crate) with false. change (text_eqb wrapper_mod (lit "super")) with false.
  cbn [module_at descend]. cbv iota. unfold all_items. rewrite (entry_wrapper_mod _ T (top_apart config top o_top Types)).
  rewrite (entry_wrapper T w s (proj1 Track) I). reflexivity.
Qed.

(** Names of a module do not begin with a reserved word. *)
Lemma own_head : forall g k p x, own_name unicode g (k :: p) x -> fine unicode g -> ~ In k reserved.
Proof.
  intros g k p x O F. inversion F as [g0 _ Rs _ Rn _ _ _ _ _]. subst g0. inversion O; subst.
  - apply Rn. assumption.
  - match goal with I : In _ (g_imports g) |- _ => exact (Rs _ I) end.
  - match goal with I : In _ (g_imports g) |- _ => exact (Rs _ I) end.
Qed.
Lemma resolve_local : forall mp k r sub, ~ In k reserved -> module_at items mp = Some sub ->
  resolve items mp (k :: r) = descend mp sub (k :: r).
Proof.
  intros mp k r sub N M. unfold resolve.
  destruct (teqb k pest_crate) as [->|_]; [exfalso; apply N; unfold reserved; cbn [map In]; tauto|].
  destruct (teqb k (lit "super")) as [->|_]; [exfalso; apply N; unfold reserved; cbn [map In]; tauto|].
  rewrite M. reflexivity.
Qed.
Lemma module_path_head : forall k p, exists r, module_path (k :: p) ++ [last (k :: p) []] = k :: r.
Proof. intros k [|k' p]; [exists []; reflexivity|]. eexists. reflexivity. Qed.

(** A rule. *)
Lemma resolve_rule : forall mp depth g coll p g' r n, emitted mp depth g coll -> names unicode g p (E_rule g' r) -> stands_for mp p (E_rule g' r) n ->
  exists mp' depth' coll' s, emitted mp' depth' g' coll' /\ struct_made config fuel unicode T o_top mp' depth' g' coll' r s /\
    resolve items mp (module_path p ++ [last p []]) = Some (T_item mp' (R_struct s)).
Proof.
  intros mp depth g coll p g' r n E N S. destruct S as (_ & _ & _ & _ & mp' & d' & c' & s & E' & St & sub & At & De).
  exists mp', d', c', s. split; [exact E'|]. split; [exact St|].
  inversion N as [|p' x O _]; subst. destruct p as [|k p]; [inversion O|].
  destruct (module_path_head k p) as (rest & Q). rewrite Q in *.
  rewrite (resolve_local mp k rest sub); [exact De| |exact At]. eapply own_head; [exact O|]. destruct E as (o & _ & _ & _ & _ & F). exact F.
Qed.
End Resolve.
