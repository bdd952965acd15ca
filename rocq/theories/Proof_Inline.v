(** Replacing parameters is substitution. *)
From Coq Require Import String List NArith ZArith Arith Bool Lia.
From Verif Require Import Model_Text Model_Message Model_Meta Model_Import Model_Generator Model_Output Model_Inline
  Spec_Text Spec_Grammar_Peg Spec_Occur Spec_Inline Proof_Text Proof_Emit Proof_Box.
Import ListNotations.
Open Scope list_scope.

Scheme substitutes_mut := Minimality for substitutes Sort Prop
  with substitutes_nodes_mut := Minimality for substitutes_nodes Sort Prop.
Combined Scheme substitutes_mutind from substitutes_mut, substitutes_nodes_mut.

Definition at_node (x : text) (a : parse_expr) (n : parse_node) : parse_node * bool :=
  match n with mkNode e s => let (e', b) := replace x a e in (mkNode e' s, b) end.
Fixpoint replace_any (x : text) (a : parse_expr) (l : list parse_node) : list parse_node * bool :=
  match l with
  | [] => ([], false)
  | n :: r => let (n, b) := at_node x a n in if b then (n :: r, true) else let (r, b) := replace_any x a r in (n :: r, b)
  end.
Lemma replace_call : forall x a p args, replace x a (PPath p (Some (PCall args))) =
  let (args, b) := replace_any x a args in (PPath p (Some (PCall args)), b).
Proof.
  intros x a p args.
  assert (E : (fix any (l : list parse_node) : list parse_node * bool :=
           match l with
           | [] => ([], false)
           | n :: r =>
               let (n, b) := (match n with mkNode e s => let (e', b) := replace x a e in (mkNode e' s, b) end) in
               if b then (n :: r, true) else let (r, b) := any r in (n :: r, b)
           end) args = replace_any x a args).
  { induction args as [|n l IH]; [reflexivity|]. cbn [replace_any at_node]. destruct n as [e s]. unfold at_node. destruct (replace x a e) as (e', []); [reflexivity|].
    rewrite IH. reflexivity. }
  rewrite <- E. destruct p as [|? []]; reflexivity.
Qed.
Lemma replace_name : forall x a p, replace x a (PPath p None) = match p with [y] => if text_eqb y x then (a, true) else (PPath p None, false) | _ => (PPath p None, false) end.
Proof. intros x a [|y [|z p]]; reflexivity. Qed.
Lemma replace_slice : forall x a p r, replace x a (PPath p (Some (PSlice r))) = (PPath p (Some (PSlice r)), false).
Proof. intros x a [|y [|z p]] r; reflexivity. Qed.

Fixpoint once (x : text) (e : parse_expr) : Prop :=
  let nd (n : parse_node) := match n with mkNode e _ => once x e end in
  match e with
  | PStr _ | PInsens _ | PRange _ _ => True
  | PPosPred n | PNegPred n | POpt n | PRep n | PRepOnce n | PRepRange n _ | PSeparated n _ => nd n
  | PSeq l r _ | PChoice l r => nd l /\ nd r
  | PPath path args =>
      (path = [x] -> args = None) /\
      match args with
      | Some (PCall l) =>
          (fix go (l : list parse_node) := match l with
             | [] => True
             | n :: r => nd n /\ (In x (used_names_node n) -> forall m, In m r -> ~ In x (used_names_node m)) /\ go r
             end) l
      | _ => True
      end
  end.
Fixpoint once_args (x : text) (l : list parse_node) : Prop :=
  match l with
  | [] => True
  | n :: r => once x (n_expr n) /\ (In x (used_names (n_expr n)) -> forall m, In m r -> ~ In x (used_names (n_expr m))) /\ once_args x r
  end.
Lemma once_call : forall x path l, once x (PPath path (Some (PCall l))) <-> path <> [x] /\ once_args x l.
Proof.
  intros x path l. cbn [once].
  match goal with |- (_ /\ ?F l) <-> _ => assert (E : F l <-> once_args x l) end.
  { induction l as [|[e s] l IH]; [reflexivity|]. cbn [once_args n_expr used_names_node]. rewrite <- IH. clear.
    split; intros (A & B & C); (split; [exact A|split; [|exact C]]); intros U m I; specialize (B U m I); destruct m; exact B. }
  rewrite E. split; intros (A & B); (split; [|exact B]); [intro P; specialize (A P); discriminate|intro P; contradiction].
Qed.

Lemma used_once_operand : forall x e e1, operand_of e1 e -> used_once x e -> used_once x e1.
Proof.
  intros x e e1 O (A & B). split.
  - intros args P. apply A. eapply Part_in; eassumption.
  - intros path l1 a l2 b l3 P. apply (B path l1 a l2 b l3). eapply Part_in; eassumption.
Qed.
Lemma used_once_once : forall x e, used_once x e -> once x e.
Proof.
  intro x. assert (Nd : forall n, (used_once x (n_expr n) -> once x (n_expr n)) -> used_once x (n_expr n) -> match n with mkNode e _ => once x e end) by (intros [e s] H; exact H).
  apply (expr_rect (fun e => used_once x e -> once x e)); intros; try exact I;
    try (match goal with IH : used_once x (n_expr ?n) -> _, H : used_once x ?e |- _ => apply (Nd n IH); eapply used_once_operand; [|exact H]; constructor end; fail);
    try (match goal with |- once x (PSeq ?l ?r ?t) => idtac | |- once x (PChoice ?l ?r) => idtac end;
         split; match goal with |- match ?n with _ => _ end => apply Nd; [assumption|eapply used_once_operand; [|eassumption]; constructor] end; fail).
  - split; [reflexivity|exact I].
  - split; [|exact I]. intros ->. match goal with H : used_once _ _ |- _ => destruct H as (A & _) end. apply (A _ (Part_self _)).
  - match goal with H : used_once _ _ |- _ => rename H into U end. match goal with H : forall n, In n args -> _ |- _ => rename H into IH end.
    apply once_call. split; [intros ->; destruct U as (A & _); discriminate (A _ (Part_self _))|].
    assert (G : forall l0 l, args = l0 ++ l -> once_args x l).
    { intros l0 l. revert l0. induction l as [|n l IHl]; intros l0 E; [exact I|]. cbn [once_args]. split; [|split].
      - apply IH; [rewrite E; apply in_or_app; right; left; reflexivity|]. eapply used_once_operand; [|exact U]. constructor. rewrite E. apply in_or_app. right. left. reflexivity.
      - intros Hn m Hm Hx. destruct (in_split _ _ Hm) as (l2 & l3 & ->). destruct U as (_ & B).
        apply (B path l0 n l2 m l3); [rewrite <- E; constructor|]. split; apply used_names_spec; assumption.
      - apply (IHl (l0 ++ [n])). rewrite <- app_assoc. exact E. }
    apply (G [] args eq_refl).
Qed.

Lemma replace_absent : forall x a e, ~ In x (used_names e) -> replace x a e = (e, false).
Proof.
  intros x a. assert (Nd : forall n, (~ In x (used_names (n_expr n)) -> replace x a (n_expr n) = (n_expr n, false)) ->
    ~ In x (used_names_node n) -> at_node x a n = (n, false)).
  { intros [e s] H N. cbn [n_expr used_names_node] in *. unfold at_node. rewrite (H N). reflexivity. }
  assert (One : forall n, at_node x a n = (n, false) -> match n with mkNode e s => let (e', b) := replace x a e in (mkNode e' s, b) end = (n, false)) by (intros n H; exact H).
  apply (expr_rect (fun e => ~ In x (used_names e) -> replace x a e = (e, false))); intros; try reflexivity;
    try (match goal with IH : ~ In x (used_names (n_expr ?n)) -> _, H : ~ In x _ |- _ => cbn [replace]; fold (at_node x a n); rewrite (Nd n IH H); reflexivity end).
  - rewrite replace_name. destruct path as [|y [|z p]]; try reflexivity. destruct (teqb y x) as [->|]; [|reflexivity]. exfalso. apply H. left. reflexivity.
  - apply replace_slice.
  - rewrite replace_call. assert (E : replace_any x a args = (args, false)); [|rewrite E; reflexivity].
    assert (N : forall n, In n args -> ~ In x (used_names (n_expr n))).
    { intros n J K. apply H0. cbn [used_names]. apply in_or_app. right. apply used_args_in. exists n. split; assumption. }
    clear H0. induction args as [|n l IH]; [reflexivity|]. cbn [replace_any].
    rewrite (Nd n (H n (or_introl eq_refl))); [|rewrite used_node; apply N; left; reflexivity].
    rewrite IH; [reflexivity|intros m J; apply H; right; exact J|intros m J; apply N; right; exact J].
  - cbn [used_names] in H1. cbn [replace]. fold (at_node x a l). fold (at_node x a r).
    rewrite (Nd l H), (Nd r H0); [reflexivity|intro J; apply H1, in_or_app; right; exact J|intro J; apply H1, in_or_app; left; exact J].
  - cbn [used_names] in H1. cbn [replace]. fold (at_node x a l). fold (at_node x a r).
    rewrite (Nd l H), (Nd r H0); [reflexivity|intro J; apply H1, in_or_app; right; exact J|intro J; apply H1, in_or_app; left; exact J].
Qed.

(** Whether anything was replaced tells whether the parameter occurs. *)
Lemma substitutes_absent : forall sigma,
  (forall e e', substitutes sigma e e' -> (forall x v, In x (used_names e) -> ~ assoc x sigma v) -> e' = e) /\
  (forall l l', substitutes_nodes sigma l l' -> (forall n x v, In n l -> In x (used_names (n_expr n)) -> ~ assoc x sigma v) -> l' = l).
Proof.
  intro sigma. apply substitutes_mutind; intros; try reflexivity;
    try (match goal with IH : _ -> ?e' = ?e |- _ (mkNode ?e' _) = _ => rewrite IH; [reflexivity|assumption] end);
    try (match goal with IH : _ -> ?e' = ?e |- _ (mkNode ?e' _) _ = _ => rewrite IH; [reflexivity|assumption] end).
  - exfalso. eapply H0; [left; reflexivity|eassumption].
  - rewrite H0; [reflexivity|]. intros n x v J K. apply H1. cbn [used_names]. apply in_or_app. right. apply used_args_in. exists n. split; assumption.
  - rewrite H0, H2; [reflexivity|intros x v J; apply H3; cbn [used_names used_names_node]; apply in_or_app; right; exact J|intros x v J; apply H3; cbn [used_names used_names_node]; apply in_or_app; left; exact J].
  - rewrite H0, H2; [reflexivity|intros x v J; apply H3; cbn [used_names used_names_node]; apply in_or_app; right; exact J|intros x v J; apply H3; cbn [used_names used_names_node]; apply in_or_app; left; exact J].
  - rewrite H0, H2; [reflexivity| |].
    + intros n x v J. apply H3. right. exact J.
    + intros x v J. apply (H3 (mkNode e s)); [left; reflexivity|exact J].
Qed.
Lemma substitutes_same : forall sigma e, (forall x v, In x (used_names e) -> ~ assoc x sigma v) -> substitutes sigma e e.
Proof.
  intro sigma. apply (expr_rect (fun e => (forall x v, In x (used_names e) -> ~ assoc x sigma v) -> substitutes sigma e e)); intros;
    try (constructor; fail);
    try (match goal with n : parse_node |- _ => destruct n as [e s]; constructor; apply H; exact H0 end).
  - constructor. intros x a ->. apply H. left. reflexivity.
  - constructor. assert (N : forall n x v, In n args -> In x (used_names (n_expr n)) -> ~ assoc x sigma v).
    { intros n x v J K. apply H0. cbn [used_names]. apply in_or_app. right. apply used_args_in. exists n. split; assumption. }
    clear H0. induction args as [|[e s] l IH]; [constructor|]. constructor.
    + apply (H (mkNode e s)); [left; reflexivity|]. intros x v. apply (N (mkNode e s)). left. reflexivity.
    + apply IH; [intros n J; apply H; right; exact J|]. intros n x v J. apply N. right. exact J.
  - destruct l as [l sl], r as [r sr]. cbn [used_names used_names_node n_expr] in *.
    constructor; [apply H|apply H0]; intros x v J; apply H1, in_or_app; [left|right]; exact J.
  - destruct l as [l sl], r as [r sr]. cbn [used_names used_names_node n_expr] in *.
    constructor; [apply H|apply H0]; intros x v J; apply H1, in_or_app; [left|right]; exact J.
Qed.
Lemma substitutes_nodes_same : forall sigma l, (forall n x v, In n l -> In x (used_names (n_expr n)) -> ~ assoc x sigma v) -> substitutes_nodes sigma l l.
Proof.
  intros sigma l. induction l as [|[e s] l IH]; intro N; [constructor|]. constructor.
  - apply substitutes_same. intros x v. apply (N (mkNode e s)). left. reflexivity.
  - apply IH. intros n x v J. apply N. right. exact J.
Qed.

Lemma assoc_one : forall {A : Type} x y (a v : A), assoc y [(x, a)] v <-> y = x /\ v = a.
Proof.
  intros A x y a v. split.
  - intro H. inversion H; subst; [split; reflexivity|]. match goal with X : assoc _ [] _ |- _ => inversion X end.
  - intros (-> & ->). constructor.
Qed.
Lemma in_dec_text : forall (x : text) l, {In x l} + {~ In x l}.
Proof. intros. apply in_dec, list_eq_dec, N.eq_dec. Defined.
Lemma replace_true : forall x a e, snd (replace x a e) = true -> In x (used_names e).
Proof.
  intros x a e H. destruct (in_dec_text x (used_names e)) as [J|J]; [exact J|]. rewrite (replace_absent x a e J) in H. discriminate.
Qed.
Lemma replace_substitutes : forall x a e, once x e -> substitutes [(x, a)] e (fst (replace x a e)).
Proof.
  intros x a. assert (Nd : forall n, (once x (n_expr n) -> substitutes [(x, a)] (n_expr n) (fst (replace x a (n_expr n)))) -> once x (n_expr n) ->
    exists e' b, at_node x a n = (mkNode e' (n_span n), b) /\ substitutes [(x, a)] (n_expr n) e').
  { intros [e s] H O. cbn [n_expr n_span] in *. specialize (H O). unfold at_node. destruct (replace x a e) as (e', b). exists e', b. split; [reflexivity|exact H]. }
  apply (expr_rect (fun e => once x e -> substitutes [(x, a)] e (fst (replace x a e)))); intros; try (constructor; fail);
    try (match goal with IH : once x (n_expr ?n) -> _, H : once x _ |- _ => destruct n as [e s]; cbn [once n_expr] in *;
      destruct (Nd (mkNode e s) IH H) as (e' & b & E & S); cbn [replace]; fold (at_node x a (mkNode e s)); rewrite E; cbn [fst n_span]; constructor; exact S end).
  - rewrite replace_name. destruct path as [|y [|z p]]; cbn [fst].
    + constructor. discriminate.
    + destruct (teqb y x) as [->|N]; cbn [fst]; [apply Su_param; constructor|]. apply Su_path. intros x' v E K. injection E as <-. apply assoc_one in K. destruct K as (<- & _). congruence.
    + constructor. discriminate.
  - rewrite replace_slice. constructor.
  - apply once_call in H0. destruct H0 as (_ & O). rewrite replace_call.
    assert (G : substitutes_nodes [(x, a)] args (fst (replace_any x a args))).
    { induction args as [|n l IH]; [constructor|]. cbn [once_args] in O. destruct O as (O1 & O2 & O3). cbn [replace_any].
      destruct (Nd n (H n (or_introl eq_refl)) O1) as (e' & b & E & S). rewrite E. destruct b; cbn [fst].
      - assert (J : In x (used_names (n_expr n))).
        { apply (replace_true x a). destruct n as [e s]. cbn [at_node n_expr] in *. destruct (replace x a e) as (e2, b2). injection E as _ ->. reflexivity. }
        destruct n as [e s]. cbn [n_expr n_span] in *. constructor; [exact S|]. apply substitutes_nodes_same.
        intros n y v K Hy A. apply assoc_one in A. destruct A as (-> & _). exact (O2 J n K Hy).
      - specialize (IH (fun m J => H m (or_intror J)) O3). destruct (replace_any x a l) as (l', b'). cbn [fst] in *.
        destruct n as [e s]. cbn [n_expr n_span] in *. constructor; [exact S|exact IH]. }
    destruct (replace_any x a args) as (args', b). cbn [fst] in *. constructor. exact G.
  - destruct l as [l sl], r as [r sr]. cbn [once n_expr] in *. destruct H1 as (O1 & O2).
    destruct (Nd (mkNode l sl) H O1) as (l' & b & E & S), (Nd (mkNode r sr) H0 O2) as (r' & b' & E' & S').
    cbn [replace]. fold (at_node x a (mkNode l sl)). fold (at_node x a (mkNode r sr)). rewrite E, E'. constructor; assumption.
  - destruct l as [l sl], r as [r sr]. cbn [once n_expr] in *. destruct H1 as (O1 & O2).
    destruct (Nd (mkNode l sl) H O1) as (l' & b & E & S), (Nd (mkNode r sr) H0 O2) as (r' & b' & E' & S').
    cbn [replace]. fold (at_node x a (mkNode l sl)). fold (at_node x a (mkNode r sr)). rewrite E, E'. constructor; assumption.
Qed.

(** Names after a substitution. *)
Lemma substitutes_names : forall sigma,
  (forall e e', substitutes sigma e e' -> forall y, In y (used_names e') -> In y (used_names e) \/ exists x a, assoc x sigma a /\ In y (used_names a)) /\
  (forall l l', substitutes_nodes sigma l l' -> forall n' y, In n' l' -> In y (used_names (n_expr n')) ->
     (exists n, In n l /\ In y (used_names (n_expr n))) \/ exists x a, assoc x sigma a /\ In y (used_names a)).
Proof.
  intro sigma. apply substitutes_mutind; intros; try (left; assumption); try contradiction; auto.
  - right. exists x, a. split; assumption.
  - cbn [used_names] in *. apply in_app_or in H1. destruct H1 as [J|J]; [left; apply in_or_app; left; exact J|]. apply used_args_in in J. destruct J as (n & J & K).
    destruct (H0 n y J K) as [(m & Hm & Hy)|R]; [|right; exact R]. left. apply in_or_app. right. apply used_args_in. exists m. split; assumption.
  - cbn [used_names used_names_node] in *. apply in_app_or in H3. destruct H3 as [J|J]; [destruct (H0 y J) as [K|K]|destruct (H2 y J) as [K|K]]; auto; left; apply in_or_app; auto.
  - cbn [used_names used_names_node] in *. apply in_app_or in H3. destruct H3 as [J|J]; [destruct (H0 y J) as [K|K]|destruct (H2 y J) as [K|K]]; auto; left; apply in_or_app; auto.
  - destruct H3 as [<-|J].
    + cbn [n_expr] in *. destruct (H0 y H4) as [K|K]; [|right; exact K]. left. exists (mkNode e s). split; [left; reflexivity|exact K].
    + destruct (H2 n' y J H4) as [(m & Hm & Hy)|R]; [|right; exact R]. left. exists m. split; [right; exact Hm|exact Hy].
Qed.
Lemma substitutes_once : forall x a y, y <> x -> ~ In y (used_names a) ->
  (forall e e', substitutes [(x, a)] e e' -> once y e -> once y a -> once y e') /\
  (forall l l', substitutes_nodes [(x, a)] l l' -> once_args y l -> once y a -> once_args y l').
Proof.
  intros x a y N F. assert (Back : forall sigma e e', sigma = [(x, a)] -> substitutes sigma e e' -> In y (used_names e') -> In y (used_names e)).
  { intros sigma e e' -> S J. destruct (proj1 (substitutes_names _) _ _ S y J) as [K|(z & v & A & K)]; [exact K|]. apply assoc_one in A. destruct A as (_ & ->). contradiction. }
  assert (Backs : forall l l', substitutes_nodes [(x, a)] l l' -> forall m, In m l' -> In y (used_names (n_expr m)) -> exists n, In n l /\ In y (used_names (n_expr n))).
  { intros l l' S m J K. destruct (proj2 (substitutes_names _) _ _ S m y J K) as [R|(z & v & A & R)]; [exact R|]. apply assoc_one in A. destruct A as (_ & ->). contradiction. }
  apply substitutes_mutind; intros; try assumption; try exact I; auto.
  - apply assoc_one in H. destruct H as (-> & ->). assumption.
  - apply once_call in H1. apply once_call. destruct H1 as (P & O). split; [exact P|auto].
  - cbn [once] in *. destruct H3. auto.
  - cbn [once] in *. destruct H3. auto.
  - cbn [once_args n_expr] in *. destruct H3 as (O1 & O2 & O3). split; [auto|]. split; [|auto].
    intros J m Hm Hy. destruct (Backs _ _ H1 m Hm Hy) as (n & Hn & Hy'). exact (O2 (Back _ _ _ eq_refl H J) n Hn Hy').
Qed.

Lemma substitutes_compose : forall x a sigma, (forall y v, In y (used_names a) -> ~ assoc y sigma v) ->
  (forall e e1, substitutes [(x, a)] e e1 -> forall e2, substitutes sigma e1 e2 -> substitutes ((x, a) :: sigma) e e2) /\
  (forall l l1, substitutes_nodes [(x, a)] l l1 -> forall l2, substitutes_nodes sigma l1 l2 -> substitutes_nodes ((x, a) :: sigma) l l2).
Proof.
  intros x a sigma F. apply substitutes_mutind; intros;
    try (match goal with H : substitutes sigma _ _ |- _ => inversion H; subst; constructor; auto end; fail);
    try (match goal with H : substitutes_nodes sigma _ _ |- _ => inversion H; subst; constructor; auto end; fail).
  - apply assoc_one in H. destruct H as (-> & ->). rewrite (proj1 (substitutes_absent sigma) _ _ H0 F). constructor. constructor.
  - inversion H0; subst.
    + constructor. constructor; [|assumption]. intros ->. eapply H; [reflexivity|constructor].
    + constructor. intros y v -> A. inversion A; subst; [eapply H; [reflexivity|constructor]|]. eapply H2; [reflexivity|eassumption].
Qed.

Lemma assoc_in : forall {A : Type} x (l : list (text * A)) v, assoc x l v -> In (x, v) l.
Proof. intros A x l v H. induction H; [left; reflexivity|right; assumption]. Qed.
(** Replacing the parameters one after the other is substituting them at once, if no argument mentions
    a parameter. *)
Lemma replace_all_substitutes : forall l e, NoDup (map snd l) -> (forall y, In y (map snd l) -> once y e) ->
  (forall a x y, In (a, x) l -> In y (map snd l) -> ~ In y (used_names a)) ->
  substitutes (map (fun ax => (snd ax, fst ax)) l) e (fst (replace_all l e)).
Proof.
  induction l as [|(a, x) l IH]; intros e Nd On Fr.
  - cbn [map replace_all fst]. apply substitutes_same. intros x v _ A. inversion A.
  - cbn [map snd fst replace_all] in *. inversion Nd as [|? ? Nx Nd']; subst.
    assert (S := replace_substitutes x a e (On x (or_introl eq_refl))). destruct (replace x a e) as (e1, b). cbn [fst] in S.
    assert (S' : substitutes (map (fun ax => (snd ax, fst ax)) l) e1 (fst (replace_all l e1))).
    { apply IH; [exact Nd'| |].
      - intros y J. apply (proj1 (substitutes_once x a y ltac:(intros ->; contradiction) (Fr a x y (or_introl eq_refl) (or_intror J))) _ _ S); [apply On; right; exact J|].
        assert (Na := Fr a x y (or_introl eq_refl) (or_intror J)). clear - Na. apply used_once_once. split.
        + intros args P. exfalso. apply Na, used_names_spec. exists args. exact P.
        + intros path l1 n l2 m l3 P ((args & Hn) & _). apply Na, used_names_spec. exists args. eapply part_trans; [exact Hn|].
          eapply part_trans; [|exact P]. apply part_operand. constructor. apply in_or_app. right. left. reflexivity.
      - intros a' x' y J K. apply (Fr a' x' y); [right; exact J|right; exact K]. }
    destruct (replace_all l e1) as (e2, b'). cbn [fst] in *. eapply (proj1 (substitutes_compose x a _ _)); [exact S|exact S'].
  Unshelve. intros y v J A. apply assoc_in, in_map_iff in A. destruct A as ((a', x') & E & K). injection E as -> ->.
    apply (Fr a x y); [left; reflexivity|right; apply in_map_iff; exists (v, y); split; [reflexivity|exact K]|exact J].
Qed.

(** Whether anything was replaced, for parameters without arguments. *)
Lemma replace_found : forall x a e, (forall args, part (PPath [x] args) e -> args = None) -> In x (used_names e) -> snd (replace x a e) = true.
Proof.
  intros x a.
  assert (Nd : forall n e, ((forall args, part (PPath [x] args) (n_expr n) -> args = None) -> In x (used_names (n_expr n)) -> snd (replace x a (n_expr n)) = true) ->
    operand_of (n_expr n) e -> (forall args, part (PPath [x] args) e -> args = None) -> In x (used_names_node n) -> snd (at_node x a n) = true).
  { intros n e H Op A I. rewrite used_node in I. specialize (H (fun args P => A args (Part_in _ _ _ P Op)) I). destruct n as [e0 s]. cbn [n_expr at_node] in *.
    destruct (replace x a e0). exact H. }
  apply (expr_rect (fun e => (forall args, part (PPath [x] args) e -> args = None) -> In x (used_names e) -> snd (replace x a e) = true)); intros; try contradiction;
    try (match goal with IH : _ -> In x (used_names (n_expr ?n)) -> _, A : forall args, part _ ?e -> _, H : In x _ |- _ =>
      cbn [replace]; fold (at_node x a n); assert (Q := Nd n e IH ltac:(constructor) A H); destruct (at_node x a n); exact Q end).
  - rewrite replace_name. cbn [used_names] in H0. rewrite app_nil_r in H0. destruct path as [|y [|z p]]; try contradiction. destruct H0 as [->|[]].
    destruct (teqb x x); [reflexivity|contradiction].
  - exfalso. cbn [used_names used_names_args] in H0. rewrite app_nil_r in H0. destruct path as [|y [|z p]]; try contradiction. destruct H0 as [->|[]].
    specialize (H _ (Part_self _)). discriminate.
  - rewrite replace_call. assert (In x (used_names_args (PCall args))) as I.
    { cbn [used_names] in H1. apply in_app_or in H1. destruct H1 as [I|I]; [|exact I]. exfalso. destruct path as [|y [|z p]]; try contradiction. destruct I as [->|[]].
      specialize (H0 _ (Part_self _)). discriminate. }
    apply used_args_in in I. destruct I as (n & J & I).
    assert (A : forall l, (forall m, In m l -> In m args) -> In n l -> snd (replace_any x a l) = true).
    { induction l as [|m l IHl]; intros S K; [destruct K|]. cbn [replace_any]. destruct (at_node x a m) as (m', []) eqn:E; [reflexivity|].
      destruct K as [->|K].
      - assert (Q := Nd n _ (H n J) (Op_arg path args n J) H0). rewrite used_node in Q. specialize (Q I). rewrite E in Q. discriminate.
      - specialize (IHl (fun m Q => S m (or_intror Q)) K). destruct (replace_any x a l). exact IHl. }
    specialize (A args (fun m Q => Q) J). destruct (replace_any x a args). exact A.
  - cbn [used_names] in H2. cbn [replace]. fold (at_node x a l). fold (at_node x a r). apply in_app_or in H2.
    assert (Q : snd (at_node x a l) || snd (at_node x a r) = true).
    { apply orb_true_iff. destruct H2 as [H2|H2]; [left; eapply Nd; [exact H| |exact H1|exact H2]|right; eapply Nd; [exact H0| |exact H1|exact H2]]; constructor. }
    destruct (at_node x a l), (at_node x a r). exact Q.
  - cbn [used_names] in H2. cbn [replace]. fold (at_node x a l). fold (at_node x a r). apply in_app_or in H2.
    assert (Q : snd (at_node x a l) || snd (at_node x a r) = true).
    { apply orb_true_iff. destruct H2 as [H2|H2]; [left; eapply Nd; [exact H| |exact H1|exact H2]|right; eapply Nd; [exact H0| |exact H1|exact H2]]; constructor. }
    destruct (at_node x a l), (at_node x a r). exact Q.
Qed.
Lemma replace_all_found : forall l e, (forall x args, In x (map snd l) -> part (PPath [x] args) e -> args = None) ->
  (snd (replace_all l e) = true <-> exists x, In x (map snd l) /\ In x (used_names e)).
Proof.
  induction l as [|(a, x) l IH]; intros e A; cbn [map snd replace_all In].
  - split; [discriminate|]. intros (x & [] & _).
  - destruct (in_dec_text x (used_names e)) as [J|J].
    + assert (Q := replace_found x a e (fun args => A x args (or_introl eq_refl)) J). destruct (replace x a e) as (e1, b). cbn [snd] in Q. subst b.
      destruct (replace_all l e1) as (e2, b'). split; [intros _; exists x; auto|reflexivity].
    + rewrite (replace_absent x a e J). specialize (IH e (fun y args K => A y args (or_intror K))). destruct (replace_all l e) as (e2, b'). cbn [snd orb] in *. rewrite IH. split.
      * intros (y & K & U). exists y. auto.
      * intros (y & [<-|K] & U); [contradiction|]. exists y. auto.
Qed.
