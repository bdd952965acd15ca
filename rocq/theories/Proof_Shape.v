(** Facts about the shapes of the types of accessors. *)
From Coq Require Import String List NArith ZArith Arith Bool Lia.
From Verif Require Import Model_Text Model_Message Model_Meta Model_Import Model_Span Model_Tracker Model_Node
  Model_Generator Model_Output
  Spec_Text Spec_Peg Spec_Rust Spec_Grammar_Peg Spec_Occur Spec_Generator Spec_Getter Spec_Shape
  Proof_Text Proof_Emit Proof_Box Proof_Process Proof_Place Proof_Resolve Proof_Names Proof_Accept Proof_Compile Proof_Leaf Proof_Read Proof_Getter.
Import ListNotations.
Open Scope list_scope.

(** * Nodes of accessors *)
Notation sh nd := (shape_of (snd (g_expand nd))).
Definition is_opt (s : shape) : bool := match s with Sh_option _ => true | _ => false end.
Definition opt_eq (nd : gnode) : Prop := flattenable nd = is_opt (sh nd).
Definition single (nd : gnode) : Prop := parts nd = [nd].

Lemma optional_is : forall s, optional s = if is_opt s then s else Sh_option s.
Proof. intros []; reflexivity. Qed.
Lemma optional_opt : forall s, is_opt (optional s) = true.
Proof. intros []; reflexivity. Qed.
Definition wrapped (edge : gedge) (s : shape) : shape :=
  match edge with E_content | E_content_i _ => s | E_choice _ | E_optional => optional s | E_contents => Sh_vec s end.
Lemma wrap_sh : forall edge nd, opt_eq nd -> opt_eq (g_wrap edge nd) /\ sh (g_wrap edge nd) = wrapped edge (sh nd) /\ single (g_wrap edge nd).
Proof.
  intros edge nd O. unfold opt_eq, single in *. destruct edge; cbn [g_wrap flattenable g_expand parts wrapped];
    destruct (g_expand nd) as (e, t); cbn [snd shape_of] in *; rewrite ?optional_is; rewrite ?O; (split; [|split; [|reflexivity]]);
    destruct (is_opt (shape_of t)) eqn:E; cbn [snd shape_of is_opt]; congruence.
Qed.

(** The shapes of the parts that are collected for each name. *)
Definition collected (gs : getters) (f : text -> list shape) : Prop :=
  (forall x nd, In (x, nd) gs -> opt_eq nd /\ map (fun p => sh p) (parts nd) = f x /\ sh nd = together (f x) /\ f x <> []) /\
  forall x, ~ In x (map fst gs) -> f x = [].
Lemma collected_ext : forall gs f f', collected gs f -> (forall x, f x = f' x) -> collected gs f'.
Proof.
  intros gs f f' (A & B) E. split.
  - intros x nd I. rewrite <- E. apply A, I.
  - intros x N. rewrite <- E. apply B, N.
Qed.
Lemma add_collected : forall k nd gs f, NoDup (map fst gs) -> collected gs f -> opt_eq nd -> single nd ->
  collected (g_add k nd gs) (fun x => if text_eqb x k then f x ++ [sh nd] else f x).
Proof.
  intros k nd gs f Nd (A & B) O Si. split.
  - intros x p I. destruct (add_in _ _ _ _ _ Nd I) as [(X & J)|(-> & [(X & ->)|(q & J & ->)])].
    + destruct (teqb x k); [contradiction|]. apply A, J.
    + rewrite teqb_refl, (B _ X). unfold single in Si. rewrite Si. cbn [app map together]. split; [exact O|]. split; [reflexivity|]. split; [reflexivity|discriminate].
    + rewrite teqb_refl. destruct (A _ _ J) as (_ & P & _ & Ne). rewrite merge_parts. unfold single in Si. rewrite Si.
      cbn [parts]. rewrite map_app, P. cbn [map]. split; [reflexivity|]. split; [reflexivity|]. split.
      * cbn [g_expand snd shape_of]. rewrite map_map, map_app. change (map (fun x => shape_of (snd (g_expand x))) (parts q)) with (map (fun p => sh p) (parts q)).
        rewrite P. cbn [map]. destruct (f k) as [|s [|s' ss]]; [contradiction|reflexivity|reflexivity].
      * destruct (f k); discriminate.
  - intros x N. rewrite add_keys in N. destruct (teqb x k) as [->|D]; [exfalso; apply N; left; reflexivity|]. apply B. tauto.
Qed.
Lemma join_collected : forall h gs f f', NoDup (map fst gs) -> NoDup (map fst h) -> collected gs f -> collected h f' ->
  (forall x nd, In (x, nd) h -> single nd) -> collected (g_join gs h) (fun x => f x ++ f' x).
Proof.
  unfold g_join. induction h as [|(k, nd) h IH]; intros gs f f' Ng Nh D (A & B) Si; cbn [fold_left fst snd].
  - eapply collected_ext; [exact D|]. intro x. cbn beta. rewrite (B x) by (intros []). rewrite app_nil_r. reflexivity.
  - cbn [map fst] in Nh. inversion Nh as [|y l Nk Nh']; subst. destruct (A k nd (or_introl eq_refl)) as (O & P & _).
    assert (S1 := Si k nd (or_introl eq_refl)). unfold single in S1. rewrite S1 in P. cbn [map] in P.
    eapply collected_ext; [apply (IH _ (fun x => if text_eqb x k then f x ++ [sh nd] else f x) (fun x => if text_eqb x k then [] else f' x))|].
    + apply add_nodup, Ng.
    + exact Nh'.
    + apply add_collected; [exact Ng|exact D|exact O|exact S1].
    + split.
      * intros x p I. destruct (teqb x k) as [->|X]; [exfalso; apply Nk; apply (in_map fst) in I; exact I|]. apply A with (x := x). right. exact I.
      * intros x X. destruct (teqb x k) as [->|Xk]; [reflexivity|]. apply B. cbn [map fst In]. intros [E|I]; [congruence|contradiction].
    + intros x p I. apply (Si x). right. exact I.
    + intro x. cbn beta. destruct (teqb x k) as [->|X]; [rewrite P, app_nil_r; reflexivity|reflexivity].
Qed.
Lemma children_collected : forall is fs edge i gs f, NoDup (map fst gs) -> collected gs f -> length fs = length is ->
  (forall c, In c is -> NoDup (map fst (i_getter c))) ->
  (forall j c h, nth_error is j = Some c -> nth_error fs j = Some h ->
     collected (g_prepend (edge (i + j)) (i_getter c)) h /\ forall x nd, In (x, nd) (g_prepend (edge (i + j)) (i_getter c)) -> single nd) ->
  collected (join_children edge i is gs) (fun x => f x ++ flat_map (fun h => h x) fs).
Proof.
  induction is as [|c is IH]; intros [|h fs] edge i gs f Ng D L Nd H; try discriminate; cbn [join_children flat_map].
  - eapply collected_ext; [exact D|]. intro x. cbn beta. rewrite app_nil_r. reflexivity.
  - assert (Np : NoDup (map fst (g_prepend (edge i) (i_getter c)))) by (rewrite prepend_keys; apply Nd; left; reflexivity).
    destruct (H 0 c h eq_refl eq_refl) as (D1 & S1). rewrite Nat.add_0_r in D1, S1.
    assert (Nj : NoDup (map fst (g_join gs (g_prepend (edge i) (i_getter c))))).
    { generalize (g_prepend (edge i) (i_getter c)). clear - Ng. intro h. unfold g_join. revert gs Ng. induction h as [|(k, nd) h IHh]; intros gs Ng; cbn [fold_left]; [exact Ng|]. apply IHh, add_nodup, Ng. }
    eapply collected_ext; [apply (IH fs edge (i + 1) _ (fun x => f x ++ h x))|].
    + exact Nj.
    + apply join_collected; assumption.
    + cbn in L. lia.
    + intros c' I. apply Nd. right. exact I.
    + intros j c' h' Nc Nh. specialize (H (S j) c' h' Nc Nh). replace (i + 1 + j) with (i + S j) by lia. exact H.
    + intro x. cbn beta. rewrite <- app_assoc. reflexivity.
Qed.

(** The shape for a name, if there is one. *)
Fixpoint looked (x : text) (gs : getters) : list shape :=
  match gs with [] => [] | (k, nd) :: gs => if text_eqb x k then [sh nd] else looked x gs end.
Lemma looked_in : forall gs x nd, NoDup (map fst gs) -> In (x, nd) gs -> looked x gs = [sh nd].
Proof.
  induction gs as [|(k, p) gs IH]; intros x nd N I; [destruct I|]. cbn [map fst] in N. inversion N as [|y l Nk N']; subst. cbn [looked].
  destruct (teqb x k) as [->|D].
  - destruct I as [E|I]; [injection E as <-; reflexivity|]. exfalso. apply Nk. apply (in_map fst) in I. exact I.
  - destruct I as [E|I]; [congruence|]. apply IH; assumption.
Qed.
Lemma looked_not : forall gs x, ~ In x (map fst gs) -> looked x gs = [].
Proof.
  induction gs as [|(k, p) gs IH]; intros x N; [reflexivity|]. cbn [looked]. cbn [map fst In] in N.
  destruct (teqb x k) as [->|D]; [exfalso; apply N; left; reflexivity|]. apply IH. tauto.
Qed.
Lemma prepend_collected : forall edge gs, NoDup (map fst gs) -> (forall x nd, In (x, nd) gs -> opt_eq nd) ->
  collected (g_prepend edge gs) (fun x => map (wrapped edge) (looked x gs)) /\ forall x nd, In (x, nd) (g_prepend edge gs) -> single nd.
Proof.
  intros edge gs N O. split; [split|].
  - intros x nd I. destruct (prepend_in _ _ _ _ I) as (p & -> & J). destruct (wrap_sh edge p (O _ _ J)) as (O' & E & Si).
    rewrite (looked_in _ _ _ N J). cbn [map together]. unfold single in Si. rewrite Si. cbn [map]. rewrite E. split; [exact O'|]. split; [reflexivity|]. split; [reflexivity|discriminate].
  - intros x X. rewrite prepend_keys in X. rewrite (looked_not _ _ X). reflexivity.
  - intros x nd I. destruct (prepend_in _ _ _ _ I) as (p & -> & J). apply (wrap_sh edge p (O _ _ J)).
Qed.

(** * Expressions *)
Section Walk.
Variable unicode : list text.
Variable g : gmodule.
Variable params : list text.
Notation mentions := (mentions unicode g params).
Notation shaped := (shaped unicode g params).

Definition shapely (e : parse_expr) (i : intermediate) : Prop :=
  NoDup (map fst (i_getter i)) /\ (forall x, In x (map fst (i_getter i)) <-> mentions x e) /\
  forall x nd, In (x, nd) (i_getter i) -> opt_eq nd /\ shaped x e (sh nd).
Definition part (x : text) (e : parse_expr) (l : list shape) : Prop := (exists s, l = [s] /\ shaped x e s) \/ (l = [] /\ ~ mentions x e).

Lemma shapely_part : forall e i x, shapely e i -> part x e (looked x (i_getter i)).
Proof.
  intros e i x (N & K & S). destruct (in_dec (list_eq_dec N.eq_dec) x (map fst (i_getter i))) as [I|I].
  - left. apply in_map_iff in I. destruct I as ((y, nd) & <- & I). exists (sh nd). split; [apply looked_in; assumption|]. apply S, I.
  - right. split; [apply looked_not, I|]. intro M. apply I, K, M.
Qed.
Lemma rest_shaped : forall x e t ls, Forall2 (part x) (map snd (sequence_rest t e)) ls -> shaped_fields unicode g params x e (concat ls).
Proof.
  intros x. fix Fx 1. intros e t ls F.
  assert (One : sequence_rest t e = [(t, e)] -> (forall a b t, e <> PSeq a b t) -> shaped_fields unicode g params x e (concat ls)).
  { intros E N. rewrite E in F. cbn [map snd] in F. inversion F as [|e0 l es ls' P F']; subst. inversion F'; subst. cbn [concat]. rewrite app_nil_r.
    destruct P as [(s & -> & S)|(-> & M)]; [apply SF_last|apply SF_last_not]; assumption. }
  destruct e as [| | | | | |[l ls0] [r rs] t'| | | | | |]; try (apply One; [reflexivity|discriminate]). clear One. cbn [sequence_rest map snd] in *.
  inversion F as [|e0 m es ls' P F']; subst. cbn [concat]. apply Fx in F'.
  destruct P as [(s & -> & S)|(-> & M)]; cbn [app]; [apply SF_more|apply SF_more_not]; assumption.
Qed.
Lemma choices_shaped : forall x e ls, Forall2 (part x) (choices_rest e) ls -> shaped_variants unicode g params x e (concat ls).
Proof.
  intros x. fix Fx 1. intros e ls F.
  assert (One : choices_rest e = [e] -> (forall a b, e <> PChoice a b) -> shaped_variants unicode g params x e (concat ls)).
  { intros E N. rewrite E in F. inversion F as [|e0 l es ls' P F']; subst. inversion F'; subst. cbn [concat]. rewrite app_nil_r.
    destruct P as [(s & -> & S)|(-> & M)]; [apply SV_last|apply SV_last_not]; assumption. }
  destruct e as [| | | | | | |[l ls0] [r rs]| | | | |]; try (apply One; [reflexivity|discriminate]). clear One. cbn [choices_rest] in *.
  inversion F as [|e0 m es ls' P F']; subst. cbn [concat]. apply Fx in F'.
  destruct P as [(s & -> & S)|(-> & M)]; cbn [app]; [apply SV_more|apply SV_more_not]; assumption.
Qed.
Lemma parts_of : forall es is x, Forall2 shapely es is -> Forall2 (part x) es (map (fun c => looked x (i_getter c)) is).
Proof. intros es is x F. induction F; cbn [map]; constructor; [apply shapely_part|]; assumption. Qed.

(** The getters of several operands. *)
Lemma children_shapes : forall edge es is, Forall2 shapely es is ->
  collected (join_children edge 0 is []) (fun x => flat_map (fun jc => map (wrapped (edge (fst jc))) (looked x (i_getter (snd jc)))) (combine (seq 0 (length is)) is)).
Proof.
  intros edge es is F.
  set (fs := map (fun jc x => map (wrapped (edge (fst jc))) (looked x (i_getter (snd jc)))) (combine (seq 0 (length is)) is)).
  assert (Sh : forall c, In c is -> exists e, shapely e c).
  { intros c I. destruct (In_nth_error _ _ I) as (j & N). clear - F N. revert j N. induction F as [|e i es is S F IH]; intros [|j] N; try discriminate N.
    - injection N as <-. exists e. exact S.
    - eapply IH, N. }
  eapply collected_ext; [apply (children_collected is fs edge 0 [] (fun _ => []))|].
  - constructor.
  - split; [intros x nd []|reflexivity].
  - subst fs. rewrite map_length, combine_length, seq_length. apply Nat.min_id.
  - intros c I. destruct (Sh c I) as (e & N & _). exact N.
  - intros j c h Nc Nh. rewrite Nat.add_0_l. subst fs. rewrite nth_error_map in Nh.
    assert (Lj : j < length is) by (apply nth_error_Some; congruence).
    assert (E : nth_error (combine (seq 0 (length is)) is) j = Some (j, c)).
    { clear - Nc Lj. assert (Q : forall (l : list intermediate) a j, nth_error l j = Some c -> nth_error (combine (seq a (length l)) l) j = Some (a + j, c)).
      { clear. induction l as [|d l IH]; intros a j N; [destruct j; discriminate N|]. destruct j as [|j]; cbn [nth_error length seq combine] in *.
        - injection N as ->. rewrite Nat.add_0_r. reflexivity.
        - rewrite (IH (S a) j N). do 2 f_equal. lia. }
      apply (Q is 0 j Nc). }
    rewrite E in Nh. cbn [option_map fst snd] in Nh. injection Nh as <-. destruct (Sh c (nth_error_In _ _ Nc)) as (e & N & _ & S).
    apply prepend_collected; [exact N|]. intros x nd I. apply (S _ _ I).
  - intro x. subst fs. cbn [app]. rewrite !flat_map_concat_map, map_map. reflexivity.
Qed.
End Walk.

(** * Generated accessors *)
Section Main.
Variable config : gconfig.
Variable fuel : nat.
Variable unicode : list text.
Variable T : gtracker.
Variable top : gmodule.
Variable o_top : output.
Variable env : rule -> rule_def.
Variable id : list text -> text -> rule.
Notation any_leaf := (fun (_ : gmodule) (_ : list (text * closure)) (_ : parse_expr) (_ : node) => True).
Notation rm := (rules_mod config).
Notation tm := (types_mod rm).
Hypothesis Types : fine_types_mod tm top.
Hypothesis Props : distinct_properties unicode.
Hypothesis Track : good_tracker T.
Variable mp : list text.
Variable depth : nat.
Variable g : gmodule.
Variable coll : list (text * mnode).
Hypothesis Em : emitted config fuel unicode T top o_top mp depth g coll.
Variable params : list text.
Hypothesis Open : forall x, In x params -> ~ In x reserved /\ forall g', ~ In (File x g') (g_imports g).
Variable ns : list node.
Hypothesis Len : length ns = length params.
Notation pe := (process_expr params (mkSys coll (make_global unicode)) (root_of depth)).
Notation ready := (ready config unicode T top o_top id any_leaf mp g).
Notation mentions := (mentions unicode g params).
Notation shaped := (shaped unicode g params).
Notation shapely := (shapely unicode g params).
Definition shapes (e : parse_expr) (i : intermediate) : Prop := forall x nd, In (x, nd) (i_getter i) -> opt_eq nd /\ shaped x e (sh nd).

Lemma got_keys : forall F e tr i tr', pe F e tr = Ret (i, tr') -> good_tracker tr -> extends tr' T -> (forall t, asks e t -> ready t) ->
  NoDup (map fst (i_getter i)) /\ forall x, In x (map fst (i_getter i)) <-> mentions x e.
Proof.
  intros F e tr i tr' H G X Rd.
  destruct (access config fuel unicode T top o_top env id Types Props Track mp depth g coll Em params Open ns Len F e tr i tr' H G X Rd) as (n & _ & (N & _) & K & _).
  split; [exact N|exact K].
Qed.
Lemma list_shapely : forall (process : parse_expr -> gtracker -> outcome (intermediate * gtracker)) l tr is tr',
  process_list process l tr = Ret (is, tr') -> good_tracker tr -> extends tr' T ->
  (forall e tr i tr', In e l -> process e tr = Ret (i, tr') -> grows tr tr') ->
  (forall e tr i tr', In e l -> process e tr = Ret (i, tr') -> good_tracker tr -> extends tr' T -> shapely e i) ->
  Forall2 shapely l is.
Proof.
  intros process. induction l as [|e l IH]; intros tr is tr' H G X Gr P; cbn [process_list] in H.
  - injection H as <- <-. constructor.
  - destruct (process e tr) as [(i, t1)| |] eqn:E1; try discriminate. cbn [obind] in H.
    destruct (process_list process l t1) as [(is1, t2)| |] eqn:E2; try discriminate. cbn [obind] in H. injection H as <- <-.
    destruct (Gr _ _ _ _ (or_introl eq_refl) E1 G) as (G1 & _).
    assert (Gl : grows t1 t2) by (eapply process_list_spec; [exact E2|]; intros; eapply Gr; [right|]; eassumption).
    destruct (Gl G1) as (G2 & X2).
    constructor.
    + eapply P; [left; reflexivity|exact E1|exact G|eapply extends_trans; eassumption].
    + eapply IH; [exact E2|exact G1|exact X| |]; intros; [eapply Gr|eapply P]; try (right; eassumption); eassumption.
Qed.
Lemma no_getters : forall e t, shapes e (mkInter t []).
Proof. intros e t x nd []. Qed.
Lemma one_getter : forall path args t name nd, g_expand nd = (X_res, Y_ref t) -> flattenable nd = false ->
  (forall x, x = name -> mentions x (PPath path args)) -> shapes (PPath path args) (mkInter t [(name, nd)]).
Proof.
  intros path args t name nd E Fl R x p [Q|[]]. injection Q as <- <-. unfold opt_eq. rewrite E. cbn [snd shape_of is_opt]. split; [exact Fl|].
  apply Sp_path. specialize (R _ eq_refl). inversion R as [| | | | | | |e n a b Rp|]; subst; [assumption|].
  exfalso. destruct Rp as [(Q & _)|[(Q & _)|(range & Q & _)]]; discriminate Q.
Qed.
Lemma edge_shapes : forall edge e e' i t, (forall x s, shaped x e s -> shaped x e' (wrapped edge s)) -> shapes e i ->
  shapes e' (mkInter t (g_prepend edge (i_getter i))).
Proof.
  intros edge e e' i t W S x nd I. cbn [i_getter] in I. destruct (prepend_in _ _ _ _ I) as (p & -> & J). destruct (S _ _ J) as (O & Sp).
  destruct (wrap_sh edge p O) as (O' & E & _). rewrite E. split; [exact O'|apply W, Sp].
Qed.

Theorem generated_shapes : forall F e tr i tr', pe F e tr = Ret (i, tr') -> good_tracker tr -> extends tr' T ->
  (forall t, asks e t -> ready t) -> shapes e i.
Proof.
  induction F as [|F IH]; intros e tr i tr' H G X Rd; [discriminate|].
  destruct (got_keys _ _ _ _ _ H G X Rd) as (_ & Keys).
  assert (One : forall n tr i tr', pe F (n_expr n) tr = Ret (i, tr') -> good_tracker tr -> extends tr' T -> operand_of (n_expr n) e -> shapes (n_expr n) i).
  { intros n t j t' H' G' X' Op. eapply IH; [exact H'|exact G'|exact X'|]. intros u A. apply Rd. eapply asks_operand; eassumption. }
  destruct e as [s|s|ca cb|path args|n|n|l r t|l r|n|n|n|n r|n t]; cbn [process_expr] in H.
  - destruct (insert_string_wrapper s tr) as (w, t1). injection H as <- <-. apply no_getters.
  - destruct (insert_string_wrapper s tr) as (w, t1). injection H as <- <-. apply no_getters.
  - injection H as <- <-. apply no_getters.
  - destruct (match path with [x] => if text_in x params then Some x else None | _ => None end) as [x|] eqn:Px.
    + injection H as <- <-. apply one_getter; try reflexivity. intros y ->. apply Keys. left. reflexivity.
    + assert (Res : forall pargs t1, sys_resolve (mkSys coll (make_global unicode)) (mkRuleRef path pargs) (root_of depth) = inl i -> t1 = tr' -> shapes (PPath path args) i).
      { intros pargs t1 Rs _. destruct (resolved_name config fuel unicode T top o_top Types Props mp depth g coll Em path pargs i Rs) as (y & _ & Ei).
        rewrite Ei. unfold referring. apply one_getter; try reflexivity. intros z ->. apply Keys. rewrite Ei. left. reflexivity. }
      destruct args as [[l|range]|]; cbn [obind] in H.
      * destruct (process_list (pe F) (map n_expr l) tr) as [(is, t1)| |] eqn:El; try discriminate. cbn [obind] in H.
        destruct (sys_resolve _ _ _) as [j|] eqn:Rs; [|discriminate]. injection H as <- <-. eapply Res; [exact Rs|reflexivity].
      * destruct (sys_resolve _ _ _) as [j|] eqn:Rs; [|discriminate]. injection H as <- <-. eapply Res; [exact Rs|reflexivity].
      * destruct (sys_resolve _ _ _) as [j|] eqn:Rs; [|discriminate]. injection H as <- <-. eapply Res; [exact Rs|reflexivity].
  - destruct (pe F (n_expr n) tr) as [(j, t1)| |] eqn:E; try discriminate. cbn [obind] in H. injection H as <- <-.
    eapply edge_shapes; [|eapply One; [exact E|exact G|exact X|constructor]]. intros x s S. apply Sp_positive, S.
  - destruct (pe F (n_expr n) tr) as [(j, t1)| |] eqn:E; try discriminate. cbn [obind] in H. injection H as <- <-. apply no_getters.
  - destruct (process_list (pe F) (map snd (collect_sequence (n_expr l) (n_expr r) t)) tr) as [(is, t1)| |] eqn:El; try discriminate.
    cbn [obind] in H. injection H as <- <-.
    assert (X1 : extends t1 T) by (eapply extends_trans; [apply record_seq_extends|exact X]).
    assert (F1 : Forall2 shapely (map snd (collect_sequence (n_expr l) (n_expr r) t)) is).
    { eapply list_shapely; [exact El|exact G|exact X1| |].
      - intros e t0 j' t' _ Hp. eapply process_expr_grows, Hp.
      - intros e t0 j' t' I Hp Gt' Xt'.
        assert (As : forall u, asks e u -> ready u).
        { apply in_map_iff in I. destruct I as (te & <- & [<-|I]); cbn [snd]; intros u A; apply Rd.
          - eapply asks_operand; [apply Op_seq_l|exact A].
          - eapply asks_operand; [apply Op_seq_r|]. destruct (sequence_asks _ _ _ I) as (_ & B). apply B, A. }
        destruct (got_keys _ _ _ _ _ Hp Gt' Xt' As) as (N & K). split; [exact N|]. split; [exact K|]. eapply IH; eassumption. }
    intros x nd I. cbn [i_getter] in I. destruct (children_shapes unicode g params E_content_i _ _ F1) as (C & _).
    destruct (C _ _ I) as (O & _ & E & Ne). split; [exact O|]. rewrite E.
    assert (Ec : flat_map (fun jc => map (wrapped (E_content_i (fst jc))) (looked x (i_getter (snd jc)))) (combine (seq 0 (length is)) is) =
      concat (map (fun c => looked x (i_getter c)) is)).
    { clear. generalize 0. induction is as [|c is IH]; intro a; [reflexivity|]. cbn [length seq combine flat_map map concat fst snd]. rewrite IH, map_id. reflexivity. }
    rewrite Ec in *. apply Sp_seq; [|exact Ne]. assert (P := parts_of unicode g params _ _ x F1). unfold collect_sequence in P. cbn [map snd] in P.
    inversion P as [|e0 p es ps P1 P2 E1 E2]. cbn [concat].
    apply rest_shaped in P2. destruct P1 as [(s & -> & S)|(-> & M)]; [apply SF_more|apply SF_more_not]; assumption.
  - destruct (process_list (pe F) (collect_choices (n_expr l) (n_expr r)) tr) as [(is, t1)| |] eqn:El; try discriminate.
    cbn [obind] in H. injection H as <- <-.
    assert (X1 : extends t1 T) by (eapply extends_trans; [apply record_choice_extends|exact X]).
    assert (F1 : Forall2 shapely (collect_choices (n_expr l) (n_expr r)) is).
    { eapply list_shapely; [exact El|exact G|exact X1| |].
      - intros e t0 j' t' _ Hp. eapply process_expr_grows, Hp.
      - intros e t0 j' t' I Hp Gt' Xt'.
        assert (As : forall u, asks e u -> ready u).
        { intros u A. apply Rd. destruct I as [<-|I].
          - eapply asks_operand; [apply Op_choice_l|exact A].
          - eapply asks_operand; [apply Op_choice_r|eapply choices_asks; eassumption]. }
        destruct (got_keys _ _ _ _ _ Hp Gt' Xt' As) as (N & K). split; [exact N|]. split; [exact K|]. eapply IH; eassumption. }
    intros x nd I. cbn [i_getter] in I. destruct (children_shapes unicode g params E_choice _ _ F1) as (C & _).
    destruct (C _ _ I) as (O & _ & E & Ne). split; [exact O|]. rewrite E.
    assert (Ec : flat_map (fun jc => map (wrapped (E_choice (fst jc))) (looked x (i_getter (snd jc)))) (combine (seq 0 (length is)) is) =
      map optional (concat (map (fun c => looked x (i_getter c)) is))).
    { clear. generalize 0. induction is as [|c is IH]; intro a; [reflexivity|]. cbn [length seq combine flat_map map concat fst snd]. rewrite IH, map_app. reflexivity. }
    rewrite Ec in *. apply Sp_choice; [|intro Q; apply Ne; rewrite Q; reflexivity]. assert (P := parts_of unicode g params _ _ x F1). unfold collect_choices in P.
    inversion P as [|e0 p es ps P1 P2 E1 E2]. cbn [concat].
    apply choices_shaped in P2. destruct P1 as [(s & -> & S)|(-> & M)]; [apply SV_more|apply SV_more_not]; assumption.
  - destruct (pe F (n_expr n) tr) as [(j, t1)| |] eqn:E; try discriminate. cbn [obind] in H. injection H as <- <-.
    eapply edge_shapes; [|eapply One; [exact E|exact G|exact X|constructor]]. intros x s S. apply Sp_opt, S.
  - destruct (pe F (n_expr n) tr) as [(j, t1)| |] eqn:E; try discriminate. cbn [obind] in H. injection H as <- <-.
    eapply edge_shapes; [|eapply One; [exact E|exact G|exact X|constructor]]. intros x s S. eapply Sp_rounds; [left; repeat split|exact S].
  - destruct (pe F (n_expr n) tr) as [(j, t1)| |] eqn:E; try discriminate. cbn [obind] in H. injection H as <- <-.
    eapply edge_shapes; [|eapply One; [exact E|exact G|exact X|constructor]]. intros x s S. eapply Sp_rounds; [right; left; repeat split|exact S].
  - destruct (pe F (n_expr n) tr) as [(j, t1)| |] eqn:E; try discriminate. cbn [obind] in H. injection H as <- <-.
    eapply edge_shapes; [|eapply One; [exact E|exact G|exact X|constructor]]. intros x s S.
    apply Sp_rounds with (n := n) (a := match r_start r with Some a => a | None => 0%N end) (b := match r_end r with Some b => b | None => usize_max end); [|exact S].
    right. right. exists r. split; [reflexivity|]. split; [destruct (r_start r)|destruct (r_end r)]; [left|right|left|right]; try split; reflexivity.
  - intros x nd I. destruct (One _ _ _ _ H G X (Op_separated n t) _ _ I) as (O & S). split; [exact O|apply Sp_separated, S].
Qed.
End Main.

(** * The struct of a rule *)
Section Struct.
Variable config : gconfig.
Variable fuel : nat.
Variable unicode : list text.
Variable T : gtracker.
Variable top : gmodule.
Variable o_top : output.
Variable env : rule -> rule_def.
Variable id : list text -> text -> rule.
Notation items := (all_items config T o_top).
Hypothesis Types : fine_types_mod (types_mod (rules_mod config)) top.
Hypothesis Props : distinct_properties unicode.
Hypothesis Track : good_tracker T.
Variable coll : list (text * mnode).
Hypothesis M : Made config fuel unicode T 0 top o_top coll.
Hypothesis Fi : fine unicode top.

Lemma struct_shapes : forall m g r s, located (types_mod (rules_mod config)) top m g -> In r (g_rules g) -> ~ is_trivia_rule r ->
  is_struct items m s -> gs_name s = pr_name r ->
  forall a, In a (gs_accessors s) -> shaped unicode g (pr_args r) (ac_name a) (n_expr (pr_node r)) (shape_of (ac_type a)).
Proof.
  intros m g r s Lo I Nt Is Sn a Ia. destruct (located_emitted config fuel unicode T top o_top Types coll M Fi m g Lo) as (depth & c & Em).
  destruct (emitted_struct config fuel unicode T top o_top _ _ _ _ r Em I Nt) as (s' & reach & i & _ & (tr & tr' & P & G & X) & Es & sub & At & En).
  assert (s' = s) as <-.
  { destruct Is as (sub' & At' & En'). rewrite At in At'. injection At' as <-. rewrite Sn, En in En'. injection En' as <-. reflexivity. }
  assert (Fg : fine unicode g) by (destruct Em as (o & _ & _ & _ & _ & Fg); exact Fg). inversion Fg as [g0 _ _ _ _ Pa _ _ _ _]. subst g0.
  assert (S := generated_shapes config fuel unicode T top o_top env id Types Props Track m depth g c Em (pr_args r) (fun x J => Pa r x I J)
    (map (fun _ => Empty) (pr_args r)) (map_length _ _) _ _ _ _ _ P G X
    (asked_ready config fuel unicode T top o_top (fun _ _ => false) env id (fun _ _ _ _ => True) Types Props Track (leaf_any unicode env) m depth g c Em r I)).
  rewrite Es in Ia. unfold create_rule in Ia. cbn [gs_accessors] in Ia. destruct (no_getter config); [destruct Ia|].
  apply in_map_iff in Ia. destruct Ia as ((x, nd) & Ea & J). destruct (S _ _ J) as (_ & Sp). destruct (g_expand nd) as (e, t) eqn:Eg.
  subst a. cbn [fst snd ac_name ac_type] in *. rewrite ?Eg in *. exact Sp.
Qed.
End Struct.

(** * The shape is determined *)
Section Once.
Variable unicode : list text.
Variable g : gmodule.
Variable params : list text.
Variable name : text.
Notation mentions := (mentions unicode g params name).
Notation shaped := (shaped unicode g params name).
Notation shaped_fields := (shaped_fields unicode g params name).
Notation shaped_variants := (shaped_variants unicode g params name).
Scheme shaped_mut := Induction for Spec_Shape.shaped Sort Prop
with shaped_fields_mut := Induction for Spec_Shape.shaped_fields Sort Prop
with shaped_variants_mut := Induction for Spec_Shape.shaped_variants Sort Prop.
Combined Scheme shaped_all from shaped_mut, shaped_fields_mut, shaped_variants_mut.
Ltac no_rep := try match goal with R : repetition _ _ _ _ |- _ => exfalso; clear - R; destruct R as [(R & _)|[(R & _)|(? & R & _)]]; discriminate R end.

Lemma shaped_mentions :
  (forall e s, shaped e s -> mentions e) /\
  (forall e ss, shaped_fields e ss -> ss <> [] -> mentions e) /\
  (forall e ss, shaped_variants e ss -> ss <> [] -> mentions e).
Proof.
  apply shaped_all; intros; try contradiction.
  - apply Mn_path. assumption.
  - apply Mn_positive. assumption.
  - auto.
  - auto.
  - apply Mn_opt. assumption.
  - eapply Mn_rep; eassumption.
  - apply Mn_separated. assumption.
  - assumption.
  - apply Mn_seq_l. assumption.
  - apply Mn_seq_r. auto.
  - assumption.
  - apply Mn_choice_l. assumption.
  - apply Mn_choice_r. auto.
Qed.
Ltac not_here := match goal with
  | H : shaped ?e _, N : ~ mentions ?e |- _ => exfalso; exact (N (proj1 shaped_mentions _ _ H))
  | D : forall _ _ _, PSeq _ _ _ <> _ |- _ => exfalso; eapply D; reflexivity
  | D : forall _ _, PChoice _ _ <> _ |- _ => exfalso; eapply D; reflexivity
  end.

Lemma shaped_once :
  (forall e s, shaped e s -> forall s', shaped e s' -> s' = s) /\
  (forall e ss, shaped_fields e ss -> forall ss', shaped_fields e ss' -> ss' = ss) /\
  (forall e ss, shaped_variants e ss -> forall ss', shaped_variants e ss' -> ss' = ss).
Proof.
  apply shaped_all.
  - intros path args R s' H. inversion H; subst; no_rep. reflexivity.
  - intros n s _ IH s' H. inversion H; subst; no_rep. apply IH; assumption.
  - intros l r t ss _ IH Ne s' H. inversion H; subst; no_rep. f_equal. apply IH; assumption.
  - intros l r ss _ IH Ne s' H. inversion H; subst; no_rep. do 2 f_equal. apply IH; assumption.
  - intros n s _ IH s' H. inversion H; subst; no_rep. f_equal. apply IH; assumption.
  - intros e n a b s Rp _ IH s' H. inversion H as [| | | | |e0 n0 a0 b0 s0 Rp' Q E1 E2|]; subst; no_rep.
    destruct (repetition_unique _ _ _ _ _ _ _ Rp Rp') as (<- & _). f_equal. apply IH, Q.
  - intros n t s _ IH s' H. inversion H; subst; no_rep. apply IH; assumption.
  - intros e s D S IH ss' H. inversion H; subst; try not_here. f_equal. apply IH; assumption.
  - intros e D N ss' H. inversion H; subst; try not_here. reflexivity.
  - intros a b t s ss S IH1 _ IH2 ss' H. inversion H; subst; try not_here. f_equal; [apply IH1|apply IH2]; assumption.
  - intros a b t ss N _ IH ss' H. inversion H; subst; try not_here. apply IH; assumption.
  - intros e s D S IH ss' H. inversion H; subst; try not_here. f_equal. apply IH; assumption.
  - intros e D N ss' H. inversion H; subst; try not_here. reflexivity.
  - intros a b s ss S IH1 _ IH2 ss' H. inversion H; subst; try not_here. f_equal; [apply IH1|apply IH2]; assumption.
  - intros a b ss N _ IH ss' H. inversion H; subst; try not_here. apply IH; assumption.
Qed.

Lemma plain_optional : forall s, plain s -> plain (optional s).
Proof. intros [] P; cbn [optional plain] in *; try exact P; (split; [discriminate|exact P]). Qed.
Lemma plain_together : forall ss, ss <> [] -> Forall plain ss -> plain (together ss).
Proof.
  intros [|s [|s' ss]] Ne F; [contradiction|inversion F; assumption|]. cbn [together plain]. split; [cbn; lia|].
  clear Ne. induction F as [|x l P F IH]; [exact I|]. cbn [fold_right]. split; assumption.
Qed.
Lemma shaped_plain :
  (forall e s, shaped e s -> plain s) /\
  (forall e ss, shaped_fields e ss -> Forall plain ss) /\
  (forall e ss, shaped_variants e ss -> Forall plain ss).
Proof.
  apply shaped_all; intros; try (constructor; auto; fail); try assumption.
  - apply plain_together; assumption.
  - apply plain_together; [destruct ss; [contradiction|discriminate]|]. apply Forall_map. eapply Forall_impl; [|eassumption]. intros s' P. apply plain_optional, P.
  - apply plain_optional. assumption.
Qed.
End Once.
