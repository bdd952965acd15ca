(** Names: what the module system finds is what the grammar names, and the emitted path leads there. *)
From Coq Require Import String List NArith ZArith Arith Bool Lia.
From Verif Require Import Model_Text Model_Message Model_Meta Model_Import Model_Tracker Model_Node Model_Generator Model_Output
  Spec_Text Spec_Peg Spec_Grammar_Peg Spec_Occur Spec_Generator Spec_Rust Proof_Text Proof_Emit Proof_Box Proof_Process.
Import ListNotations.
Open Scope list_scope.

(** Upper and lower case. *)
Lemma lowercase_folded : forall s, lowercase s = folded s.
Proof. intro s. apply map_ext. intro c. unfold ascii_fold. reflexivity. Qed.
Lemma uppercase_folded : forall s t, uppercase s = uppercase t -> folded s = folded t.
Proof.
  induction s as [|c s IH]; intros [|d t] H; try discriminate; [reflexivity|].
  cbn [uppercase folded map] in H |- *. injection H as Hc Hs. unfold folded in IH. rewrite (IH t Hs). f_equal.
  unfold ascii_fold.
  destruct ((97 <=? c) && (c <=? 122))%N eqn:E1, ((97 <=? d) && (d <=? 122))%N eqn:E2,
    ((65 <=? c) && (c <=? 90))%N eqn:E3, ((65 <=? d) && (d <=? 90))%N eqn:E4;
    rewrite ?andb_true_iff, ?andb_false_iff, ?N.leb_le, ?N.leb_gt in *; lia.
Qed.

(** The built-in rules. *)
Definition plain_names : list text := map lit
  ["soi"; "eoi"; "any"; "ascii_digit"; "ascii_nonzero_digit"; "ascii_bin_digit"; "ascii_oct_digit"; "ascii_hex_digit";
   "ascii_alpha_lower"; "ascii_alpha_upper"; "ascii_alpha"; "ascii_alphanumeric"; "ascii"; "newline"]%string.
Inductive builtin_node (unicode : list text) : list text -> mnode -> Prop :=
| BN_plain x : In x plain_names -> builtin_node unicode [x] direct
| BN_peek : builtin_node unicode [lit "stack"; lit "peek"]
    (M_generics (RG_builtin (Some true) (Some (lit "PeekSlice1", lit "PeekSlice2")) None))
| BN_life x : In x (map lit ["peek_all"; "pop"; "pop_all"]%string) -> builtin_node unicode [lit "stack"; x] direct_life
| BN_drop : builtin_node unicode [lit "stack"; lit "drop"] direct
| BN_push : builtin_node unicode [lit "stack"; lit "push"] (M_generics (RG_builtin None None (Some (Some 1))))
| BN_unicode u : In u unicode -> builtin_node unicode [lit "unicode"; folded u] (M_absolute (folded u) (uppercase u)).

Lemma lookup_unicode : forall names acc x n,
  lookup x (fold_left (fun l n => insert (lowercase n) (M_absolute (lowercase n) (uppercase n)) l) names acc) = Some n ->
  (exists u, In u names /\ x = folded u /\ n = M_absolute (folded u) (uppercase u)) \/ lookup x acc = Some n.
Proof.
  induction names as [|u names IH]; intros acc x n H; [right; exact H|]. cbn [fold_left] in H.
  destruct (IH _ _ _ H) as [(v & I & E)|L]; [left; exists v; split; [right; exact I|exact E]|].
  destruct (teqb x (lowercase u)) as [->|N].
  - rewrite lookup_insert_same in L. injection L as <-. left. exists u. rewrite lowercase_folded. split; [left; reflexivity|split; reflexivity].
  - rewrite lookup_insert_other in L by exact N. right. exact L.
Qed.
Lemma lookup_unicode_some : forall names acc x, (exists u, In u names /\ x = folded u) \/ lookup x acc <> None ->
  lookup x (fold_left (fun l n => insert (lowercase n) (M_absolute (lowercase n) (uppercase n)) l) names acc) <> None.
Proof.
  induction names as [|u names IH]; intros acc x H; [destruct H as [(u & [] & _)|H]; exact H|]. cbn [fold_left]. apply IH.
  destruct (teqb x (lowercase u)) as [->|N]; [right; rewrite lookup_insert_same; discriminate|].
  rewrite lookup_insert_other by exact N. destruct H as [(v & [<-|I] & E)|H].
  - rewrite lowercase_folded in N. congruence.
  - left. exists v. split; assumption.
  - right. exact H.
Qed.

Ltac split_lookup H :=
  repeat match type of H with
  | (if text_eqb ?x ?y then _ else _) = _ => destruct (teqb x y); [subst; try (injection H as <-)|]
  end.

Lemma pest_cases : forall unicode q n, m_descend (pest_node unicode) q = inl n ->
  (builtin_group q /\ exists l, n = M_collection l) \/ builtin_node unicode q n.
Proof.
  intros unicode q n H. destruct q as [|k q]; [left; injection H as <-; split; [left; reflexivity|eexists; reflexivity]|].
  cbn [pest_node make_global m_descend m_child lookup] in H.
  assert (Direct : forall g, m_descend (M_generics g) q = inl n -> q = [] /\ n = M_generics g).
  { intros g D. destruct q; [injection D as <-; split; reflexivity|discriminate]. }
  repeat match type of H with
  | match (if text_eqb k ?y then _ else _) with inl _ => _ | inr _ => _ end = _ => destruct (teqb k y) as [->|]
  | match (match (if text_eqb k ?y then _ else _) with Some _ => _ | None => _ end) with inl _ => _ | inr _ => _ end = _ => destruct (teqb k y) as [->|]
  end; try discriminate;
  try (apply Direct in H; destruct H as (-> & ->); right; apply BN_plain; apply (in_map lit); cbn [In]; tauto).
  - destruct q as [|x q]; [left; injection H as <-; split; [right; left; reflexivity|eexists; reflexivity]|].
    cbn [pest_stack m_descend m_child lookup] in H.
    assert (Direct' : forall g, m_descend (M_generics g) q = inl n -> q = [] /\ n = M_generics g).
    { intros g D. destruct q; [injection D as <-; split; reflexivity|discriminate]. }
    repeat match type of H with
    | match (match (if text_eqb x ?y then _ else _) with Some _ => _ | None => _ end) with inl _ => _ | inr _ => _ end = _ => destruct (teqb x y) as [->|]
    end; try discriminate; apply Direct' in H; destruct H as (-> & ->); right.
    + apply BN_peek.
    + apply BN_life. left. reflexivity.
    + apply BN_drop.
    + apply BN_push.
    + apply BN_life. right. left. reflexivity.
    + apply BN_life. right. right. left. reflexivity.
  - destruct q as [|x q]; [left; injection H as <-; split; [right; right; reflexivity|eexists; reflexivity]|].
    cbn [pest_unicode m_descend m_child] in H.
    destruct (lookup x _) as [c|] eqn:L; [|discriminate].
    apply lookup_unicode in L. destruct L as [(u & I & -> & ->)|L]; [|discriminate].
    destruct q; [|discriminate]. injection H as <-. right. apply BN_unicode, I.
Qed.

Lemma builtin_spec : forall unicode q, builtin unicode q <-> exists n, builtin_node unicode q n.
Proof.
  intros unicode q. split.
  - intros [x P C|x I|x I|x i (u & N & E)].
    + exists direct. apply BN_plain. destruct C; apply (in_map lit); cbn [In]; tauto.
    + exists direct. apply BN_plain. apply in_map_iff in I. destruct I as (s & <- & I). apply (in_map lit). cbn [In] in *. tauto.
    + apply in_map_iff in I. destruct I as (s & <- & I). cbn [In] in I.
      decompose [or] I; subst; try contradiction; eexists;
        try apply BN_peek; try apply BN_drop; try apply BN_push; apply BN_life; apply (in_map lit); cbn [In]; tauto.
    + subst x. eexists. apply BN_unicode. eapply nth_error_In, N.
  - intros (n & [x I| |x I| | |u I]).
    + apply in_map_iff in I. destruct I as (s & <- & I). cbn [In] in I.
      decompose [or] I; subst; try contradiction; try (eapply B_class; constructor); apply B_plain; apply (in_map lit); cbn [In]; tauto.
    + apply B_stack. apply (in_map lit). cbn [In]. tauto.
    + apply B_stack. apply in_map_iff in I. destruct I as (s & <- & I). apply (in_map lit). cbn [In] in *. tauto.
    + apply B_stack. apply (in_map lit). cbn [In]. tauto.
    + apply B_stack. apply (in_map lit). cbn [In]. tauto.
    + apply In_nth_error in I. destruct I as (i & N). apply (B_unicode _ _ i). exists u. split; [exact N|reflexivity].
Qed.

Lemma builtin_node_found : forall unicode q n, distinct_properties unicode -> builtin_node unicode q n ->
  m_descend (pest_node unicode) q = inl n.
Proof.
  intros unicode q n D [x I| |x I| | |u I]; try reflexivity.
  - unfold plain_names in I. cbn [map In] in I. decompose [or] I; subst; try contradiction; reflexivity.
  - cbn [map In] in I. decompose [or] I; subst; try contradiction; reflexivity.
  - cbn [pest_node make_global].
    change (m_descend (pest_unicode unicode) [folded u] = inl (M_absolute (folded u) (uppercase u))).
    cbn [pest_unicode m_descend m_child].
    destruct (lookup (folded u) _) as [c|] eqn:L.
    + apply lookup_unicode in L. destruct L as [(v & J & E & ->)|L]; [|discriminate].
      assert (u = v) as ->; [|reflexivity]. clear - D I J E. unfold distinct_properties in D.
      induction unicode as [|w l IH]; [destruct I|]. cbn in D. inversion_clear D as [|? ? N D'].
      destruct I as [->|I], J as [->|J]; try reflexivity.
      * exfalso. apply N. rewrite E. apply (in_map folded), J.
      * exfalso. apply N. rewrite <- E. apply (in_map folded), I.
      * apply IH; assumption.
    + exfalso. revert L. apply lookup_unicode_some. left. exists u. split; [exact I|reflexivity].
Qed.
Lemma builtin_node_leaf : forall unicode q n, builtin_node unicode q n -> forall l, n <> M_collection l.
Proof. intros unicode q n [] l; discriminate. Qed.
Lemma builtin_resolves_all : forall unicode, distinct_properties unicode -> builtin_resolves unicode.
Proof.
  intros unicode D q [B|[->|[->| ->]]].
  - apply builtin_spec in B. destruct B as (n & B). exists n. apply builtin_node_found; assumption.
  - eexists. reflexivity.
  - eexists. reflexivity.
  - eexists. reflexivity.
Qed.
Lemma group_found : forall unicode q, builtin_group q -> exists l, m_descend (pest_node unicode) q = inl (M_collection l).
Proof. intros unicode q [->|[->| ->]]; eexists; reflexivity. Qed.

Lemma m_descend_app : forall a b n, m_descend n (a ++ b) = match m_descend n a with inl c => m_descend c b | inr e => inr e end.
Proof.
  induction a as [|k a IH]; intros b n; [reflexivity|]. cbn [app m_descend]. destruct (m_child n k); [apply IH|reflexivity].
Qed.
Lemma m_resolve_descend : forall n p, p <> [] -> m_resolve_node n p = m_descend n p.
Proof. intros n [|k p] N; [congruence|reflexivity]. Qed.
