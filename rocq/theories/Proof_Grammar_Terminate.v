(** Proofs about left recursion in grammars. *)
From Coq Require Import String List NArith ZArith Arith Bool Lia Relations Wf_nat ZifyBool ZifyNat ZifyN.
From Verif Require Import Model_Text Model_Message Model_Meta Model_Import Model_Position Model_Span Model_Stack Model_Tracker Model_Node
  Spec_Text Spec_Peg Spec_Run Spec_Yield Spec_Terminate Spec_Grammar_Peg Spec_Occur Spec_Generator Spec_Grammar_Terminate
  Proof_Text Proof_Terminal Proof_Run Proof_Peg Proof_Yield Proof_Node Proof_Entry Proof_Terminate Proof_Compile Proof_Names Proof_Accept.
Import ListNotations.
Open Scope list_scope.

Section Total.
Variable unicode : list text.
Variable property : N -> char -> bool.
Notation gpeg := (gpeg unicode property).
Notation gpeg_items := (gpeg_items unicode property).
Notation gpeg_rounds := (gpeg_rounds unicode property).
Notation gpeg_round := (gpeg_round unicode property).
Notation can_be_empty := (can_be_empty unicode property).
Notation starts := (starts unicode property).
Notation piece := (piece unicode).
Notation pieces := (pieces unicode).

Lemma terminal_forward' : forall n pre post K r, terminal property pre post K n r -> forward pre post r.
Proof. exact (terminal_forward property). Qed.
Lemma one_char_forward : forall P pre post K r, one_char P pre post K r -> forward pre post r.
Proof. intros P pre post K r H. inversion H; subst; [|exact I]. exists [c]. split; reflexivity. Qed.
Lemma one_text_forward : forall t pre post K r, one_text t pre post K r -> forward pre post r.
Proof. intros t pre post K r H. inversion H; subst; [|exact I]. exists t. split; reflexivity. Qed.
Lemma builtin_forward : forall q pre post K r, gpeg_builtin unicode property q pre post K r -> forward pre post r.
Proof. intros q pre post K r H. inversion H; subst; eauto using terminal_forward', one_char_forward. Qed.
Lemma gpeg_forward_all :
  (forall g rho e pre post K r, gpeg g rho e pre post K r -> forward pre post r) /\
  (forall g rho l pre post K r, gpeg_items g rho l pre post K r -> forward pre post r) /\
  (forall g rho e t min max i pre post K r, gpeg_rounds g rho e t min max i pre post K r -> forward pre post r) /\
  (forall g rho e t i pre post K r, gpeg_round g rho e t i pre post K r -> forward pre post r).
Proof.
  apply gpeg_mutind; intros; try exact I; try apply forward_refl; try assumption;
    eauto using terminal_forward', one_char_forward, one_text_forward, builtin_forward, forward_trans.
Qed.
Definition gpeg_forward := proj1 gpeg_forward_all.
Definition gitems_forward := proj1 (proj2 gpeg_forward_all).

(** Sequences of expressions and trivia: the trivia [t] has the body [e]. *)
Definition of_item (g : gmodule) (rho : list (text * closure)) (x : item) (c : closure) : Prop :=
  match x with It_expr e => c = Clo g rho e | It_trivia t => exists e, c = Clo g [] e /\ trivia_body g t e end.
Definition has (c : closure) (pre post : text) (K : list text) : Prop :=
  let 'Clo g rho e := c in exists r, gpeg g rho e pre post K r.
Definition defined (g : gmodule) (x : item) : Prop :=
  match x with It_trivia t => t = TriviaNone \/ exists e, trivia_body g t e | _ => True end.

Lemma gitems_snoc : forall g rho a pre post K pre' post' K', gpeg_items g rho a pre post K (Ok pre' post' K') ->
  forall x r, gpeg_items g rho [x] pre' post' K' r -> gpeg_items g rho (a ++ [x]) pre post K r.
Proof.
  intros g rho a. induction a as [|y a IH]; intros pre post K pre' post' K' H x r Hx.
  - inversion H; subst. exact Hx.
  - inversion H; subst; cbn [app]; [eapply GI_expr|apply GI_none|eapply GI_trivia]; eauto.
Qed.
Lemma gitems_one : forall g rho x, defined g x -> forall pre post K, (forall c, of_item g rho x c -> has c pre post K) ->
  exists r, gpeg_items g rho [x] pre post K r /\
    match r with Ok pre' post' K' => forall c, of_item g rho x c -> let 'Clo g0 rho0 e0 := c in gpeg g0 rho0 e0 pre post K r | Fail => True end.
Proof.
  intros g rho [e|t] D pre post K H.
  - destruct (H (Clo g rho e) eq_refl) as ([|pre' post' K'] & R).
    + eexists. split; [apply GI_expr_fail, R|exact I].
    + eexists. split; [eapply GI_expr; [exact R|apply GI_nil]|]. intros c ->. exact R.
  - destruct D as [->|(e & T)].
    + eexists. split; [apply GI_none, GI_nil|]. intros c (e & _ & (name & r & Z & _)). discriminate Z.
    + destruct (H (Clo g [] e) (ex_intro _ e (conj eq_refl T))) as ([|pre' post' K'] & R); destruct T as (name & r & E1 & E2 & ->).
      * eexists. split; [eapply GI_trivia_fail; eassumption|exact I].
      * eexists. split; [eapply GI_trivia; [exact E1|exact E2|exact R|apply GI_nil]|]. intros c (e & -> & (name' & r' & E1' & E2' & ->)).
        replace name' with name in * by congruence. rewrite <- (last_rule_unique _ _ _ _ E2 E2'). exact R.
Qed.
Lemma gitems_pass : forall g rho a pre post K K', gpeg_items g rho a pre post K (Ok pre post K') ->
  forall x c, In x a -> of_item g rho x c -> can_be_empty c.
Proof.
  intros g rho a. induction a as [|y a IH]; intros pre post K K' H x c; [intros []|].
  inversion H; subst.
  - destruct (forward_antisym pre post pre' post' _ _ (gpeg_forward _ _ _ _ _ _ _ ltac:(eassumption)) (gitems_forward _ _ _ _ _ _ _ ltac:(eassumption))) as (-> & ->).
    intros [<-|Ix] O; [|eapply IH; eassumption]. cbn in O. subst c. exists pre, post, K. eexists. eassumption.
  - intros [<-|Ix] O; [|eapply IH; eassumption]. destruct O as (e & _ & (name & r & Z & _)). discriminate Z.
  - destruct (forward_antisym pre post pre' post' _ _ (gpeg_forward _ _ _ _ _ _ _ ltac:(eassumption)) (gitems_forward _ _ _ _ _ _ _ ltac:(eassumption))) as (-> & ->).
    intros [<-|Ix] O; [|eapply IH; eassumption]. destruct O as (e & -> & (name' & r & E & L & ->)).
    replace name' with name in * by congruence. match goal with X : last_rule g name r' |- _ => rewrite <- (last_rule_unique _ _ _ _ X L) end. exists pre, post, K. eexists. eassumption.
Qed.
Lemma gitems_total : forall g rho todo done pre post K pre0 post0 K0, Forall (defined g) todo ->
  gpeg_items g rho done pre0 post0 K0 (Ok pre post K) ->
  (forall a x b c pre' post' K', todo = a ++ x :: b -> of_item g rho x c -> gpeg_items g rho (done ++ a) pre0 post0 K0 (Ok pre' post' K') ->
     has c pre' post' K') ->
  exists r, gpeg_items g rho todo pre post K r.
Proof.
  intros g rho. induction todo as [|x todo IH]; intros done pre post K pre0 post0 K0 D Hd H; [eexists; apply GI_nil|].
  inversion D as [|? ? D1 D2]; subst.
  destruct (gitems_one g rho x D1 pre post K) as ([|pre' post' K'] & R & _).
  - intros c O. eapply (H [] x todo c); [reflexivity|exact O|]. rewrite app_nil_r. exact Hd.
  - exists Fail. inversion R; subst; try (eapply GI_expr_fail; eassumption); try (eapply GI_trivia_fail; eassumption);
      match goal with A : gpeg_items _ _ [] _ _ _ Fail |- _ => inversion A end.
  - destruct (IH (done ++ [x]) pre' post' K' pre0 post0 K0 D2) as (r & R').
    + eapply gitems_snoc; eassumption.
    + intros a y b c pre2 post2 K2 E O Hi. apply (H (x :: a) y b c pre2 post2 K2); [cbn; congruence|exact O|].
      rewrite <- app_assoc in Hi. exact Hi.
    + exists r. inversion R; subst;
        match goal with A : gpeg_items _ _ [] _ _ _ (Ok _ _ _) |- _ => inversion A; subst end;
        [eapply GI_expr|apply GI_none|eapply GI_trivia]; eassumption.
Qed.

(** Expressions in which everything is defined. *)
Inductive proper : closure -> Prop :=
| Proper g rho e :
    complete unicode g -> fine unicode g -> well_named unicode g (map fst rho) e ->
    (forall t, asks e t -> t = TriviaNone \/ exists e', trivia_body g t e') ->
    (forall x c, In (x, c) rho -> proper c) -> proper (Clo g rho e).

Lemma last_exists : forall g name r, In r (g_rules g) -> pr_name r = name -> exists r', last_rule g name r'.
Proof.
  intros g name r. unfold last_rule. induction (g_rules g) as [|x l IH]; intros I E; [destruct I|].
  destruct (existsb (fun y => text_eqb (pr_name y) name) l) eqn:X.
  - apply existsb_exists in X. destruct X as (y & Iy & Ey). apply text_eqb_eq in Ey.
    assert (H : exists r' a b, l = a ++ r' :: b /\ pr_name r' = name /\ forall r'', In r'' b -> pr_name r'' <> name).
    { clear IH I. revert y Iy Ey. induction l as [|z l IH]; intros y Iy Ey; [destruct Iy|].
      destruct (existsb (fun y => text_eqb (pr_name y) name) l) eqn:X.
      - apply existsb_exists in X. destruct X as (y' & Iy' & Ey'). apply text_eqb_eq in Ey'.
        destruct (IH y' Iy' Ey') as (r' & a & b & -> & A & B). exists r', (z :: a), b. auto.
      - exists z, [], l. split; [reflexivity|]. assert (N : forall r'', In r'' l -> pr_name r'' <> name).
        { intros r'' I'' E''. assert (existsb (fun y => text_eqb (pr_name y) name) l = true) by (apply existsb_exists; exists r''; split; [exact I''|apply text_eqb_eq, E'']). congruence. }
        split; [|exact N]. destruct Iy as [->|Iy]; [exact Ey|]. exfalso. exact (N y Iy Ey). }
    destruct H as (r' & a & b & -> & A & B). exists r', (x :: a), b. auto.
  - exists x, [], l. split; [reflexivity|]. assert (N : forall r'', In r'' l -> pr_name r'' <> name).
    { intros r'' I'' E''. assert (existsb (fun y => text_eqb (pr_name y) name) l = true) by (apply existsb_exists; exists r''; split; [exact I''|apply text_eqb_eq, E'']). congruence. }
    split; [|exact N]. destruct I as [->|Iy]; [exact E|]. exfalso. exact (N r Iy E).
Qed.
Lemma own_rule_complete : forall g p x, own_name unicode g p x -> forall g' r, x = E_rule g' r -> complete unicode g -> fine unicode g ->
  complete unicode g' /\ fine unicode g' /\ In r (g_rules g').
Proof.
  intros g p x H. induction H as [g r I _| |g alias g1 rest x I H IH]; intros g' r' E C F; try discriminate E.
  - injection E as <- <-. auto.
  - apply IH; [exact E| |]; [inversion C; subst|inversion F; subst]; eauto.
Qed.
Lemma names_rule_complete : forall g p g' r, names unicode g p (E_rule g' r) -> complete unicode g -> fine unicode g ->
  complete unicode g' /\ fine unicode g' /\ In r (g_rules g').
Proof. intros g p g' r H. inversion H; subst. eapply own_rule_complete; [eassumption|reflexivity]. Qed.
Lemma rule_asks : forall g r, complete unicode g -> In r (g_rules g) -> forall t, asks (n_expr (pr_node r)) t -> t = TriviaNone \/ exists e, trivia_body g t e.
Proof.
  intros g r C I t A. destruct C as [g _ _ T _]. destruct (trivia_name t) as [name|] eqn:E.
  - right. destruct (T r t name I A E) as (r' & I' & E'). destruct (last_exists g name r' I' E') as (r2 & L).
    exists (n_expr (pr_node r2)), name, r2. auto.
  - left. destruct t; [reflexivity|discriminate E..].
Qed.
Lemma rule_proper : forall g r cs, complete unicode g -> fine unicode g -> In r (g_rules g) -> length cs = length (pr_args r) -> (forall c, In c cs -> proper c) ->
  proper (Clo g (combine (pr_args r) cs) (n_expr (pr_node r))).
Proof.
  intros g r cs C F I L A. constructor; try assumption.
  - assert (map fst (combine (pr_args r) cs) = pr_args r) as ->.
    { revert L. generalize (pr_args r). clear. induction cs as [|c cs IH]; intros [|x l] L; try discriminate L; [reflexivity|]. cbn. f_equal. apply IH. injection L. auto. }
    inversion C; subst; auto.
  - eapply rule_asks; eassumption.
  - intros x c Ix. apply in_combine_r in Ix. auto.
Qed.
Lemma trivia_proper : forall g t e, complete unicode g -> fine unicode g -> trivia_body g t e -> proper (Clo g [] e).
Proof.
  intros g t e C F (name & r & E & (a & b & El & En & _) & ->). assert (I : In r (g_rules g)) by (rewrite El; apply in_elt).
  assert (Tr : is_trivia_rule r) by (unfold is_trivia_rule; rewrite En; destruct t; inversion E; auto).
  assert (Na : pr_args r = []) by (inversion F; subst; auto).
  assert (P := rule_proper g r [] C F I). rewrite Na in P. apply P; [reflexivity|intros c []].
Qed.
Lemma operand_asks : forall e' e t, operand_of e' e -> asks e' t -> asks e t.
Proof. intros e' e t O [(l & r & P)|(n & P)]; [left; exists l, r|right; exists n]; eapply Part_in; eassumption. Qed.
Lemma assoc_in : forall {A : Type} x (rho : list (text * A)) c, assoc x rho c -> In (x, c) rho.
Proof. intros A x rho c H. induction H; [left; reflexivity|right; assumption]. Qed.
Lemma assoc_exists : forall {A : Type} x (rho : list (text * A)), In x (map fst rho) -> exists c, assoc x rho c.
Proof.
  intros A x rho. induction rho as [|(y, c) rho IH]; intros H; [destruct H|].
  destruct (text_eqb x y) eqn:E; [apply text_eqb_eq in E; subst; eexists; constructor|].
  destruct H as [H|H]; [cbn in H; subst; rewrite (proj2 (text_eqb_eq _ _) eq_refl) in E; discriminate E|].
  destruct (IH H) as (c' & A'). exists c'. constructor; [|exact A']. intros ->. rewrite (proj2 (text_eqb_eq _ _) eq_refl) in E. discriminate E.
Qed.
Lemma assoc_param : forall {A : Type} x (rho : list (text * A)) c, assoc x rho c -> In x (map fst rho).
Proof. intros A x rho c H. apply assoc_in in H. apply (in_map fst) in H. exact H. Qed.
Lemma operand_proper : forall g rho e e', proper (Clo g rho e) -> operand_of e' e -> ~ is_path e -> proper (Clo g rho e').
Proof.
  intros g rho e e' P O N. inversion P as [? ? ? C F W A R]; subst. constructor; try assumption.
  - inversion W; subst; [exfalso; apply N; unfold is_path; eauto..|auto].
  - intros t At. apply A. eapply operand_asks; eassumption.
Qed.
Lemma argument_proper : forall g rho path l n, proper (Clo g rho (PPath path (Some (PCall l)))) -> In n l -> no_parameter rho path -> proper (Clo g rho (n_expr n)).
Proof.
  intros g rho path l n P I N. inversion P as [? ? ? C F W A R]; subst. constructor; try assumption.
  - inversion W; subst; [|eauto|].
    + exfalso. destruct (assoc_exists x rho ltac:(assumption)) as (c & Ac). exact (N x c eq_refl Ac).
    + exfalso. match goal with X : forall path args, _ <> _ |- _ => eapply X; reflexivity end.
  - intros t At. apply A. eapply operand_asks; [apply Op_arg, I|exact At].
Qed.
Lemma piece_proper : forall c d, piece c d -> proper c -> proper d.
Proof.
  intros c d H P. destruct H as [g rho e e' O N|c c' S|g rho l r t e T|g rho e n min max t e' Rp Rt T].
  - eapply operand_proper; eassumption.
  - destruct S as [g rho x args c A|g rho path args l g' r N Nm Ca L|g rho path n N Nm].
    + inversion P; subst. match goal with X : forall x c, In (x, c) rho -> _ |- _ => eapply X, assoc_in, A end.
    + inversion P as [? ? ? C F W A R]; subst. destruct (names_rule_complete g path g' r Nm C F) as (C' & F' & Ir).
      apply rule_proper; try assumption; [rewrite map_length; exact L|]. intros c Ic. apply in_map_iff in Ic. destruct Ic as (n & <- & In_).
      destruct Ca as [->|(-> & ->)]; [|destruct In_]. eapply argument_proper; eassumption.
    + eapply argument_proper; [exact P|left; reflexivity|exact N].
  - inversion P; subst. eapply trivia_proper; eassumption.
  - inversion P; subst. eapply trivia_proper; eassumption.
Qed.

(** Built-in rules always have a result. *)
Lemma one_char_total : forall P pre post K, (forall c : char, P c \/ ~ P c) -> exists r, one_char P pre post K r.
Proof.
  intros P pre [|c post] K dec.
  - eexists. apply OC_fail. intros c r Z. discriminate Z.
  - destruct (dec c) as [H|H]; [eexists; eapply OC_ok; [reflexivity|exact H]|eexists; apply OC_fail].
    intros c' r Z. injection Z as <- <-. exact H.
Qed.
Lemma terminal_total' : forall n pre post K, is_terminal n = true -> exists r, terminal property pre post K n r.
Proof. exact (terminal_total (fun _ => mkRule false (fun _ => Empty)) property). Qed.
Lemma class_dec : forall x P, char_class x P -> forall c, P c \/ ~ P c.
Proof. intros x P H c. unfold char in c. inversion H; subst; unfold between; auto; lia. Qed.
Lemma builtin_total : forall q pre post K, builtin unicode q -> q <> [lit "stack"; lit "push"] ->
  exists r, gpeg_builtin unicode property q pre post K r.
Proof.
  intros q pre post K B N. destruct B as [x P H|x I|x I|x i Pn].
  - destruct (one_char_total P pre post K (class_dec x P H)) as (r & R). exists r. eapply GB_class; eassumption.
  - cbn [map In] in I. destruct I as [<-|[<-|[<-|[]]]];
      [destruct (terminal_total' Soi pre post K eq_refl) as (r & R)|destruct (terminal_total' Eoi pre post K eq_refl) as (r & R)|destruct (terminal_total' Newline pre post K eq_refl) as (r & R)];
      exists r; constructor; exact R.
  - cbn [map In] in I. destruct I as [<-|[<-|[<-|[<-|[<-|[<-|[]]]]]]]; try contradiction;
      [destruct (terminal_total' Peek pre post K eq_refl) as (r & R)|destruct (terminal_total' PeekAll pre post K eq_refl) as (r & R)|destruct (terminal_total' Drop pre post K eq_refl) as (r & R)
      |destruct (terminal_total' Pop pre post K eq_refl) as (r & R)|destruct (terminal_total' PopAll pre post K eq_refl) as (r & R)];
      exists r; constructor; exact R.
  - destruct (one_char_total (fun c => property (N.of_nat i) c = true) pre post K) as (r & R); [intro c; destruct (property (N.of_nat i) c); auto|].
    exists r. eapply GB_unicode; eassumption.
Qed.
Lemma own_builtin : forall g p x, own_name unicode g p x -> forall q, x = E_builtin q -> builtin unicode q.
Proof. intros g p x H. induction H; intros q E; try discriminate E; [injection E as <-; assumption|eauto]. Qed.
Lemma names_builtin : forall g p q, names unicode g p (E_builtin q) -> builtin unicode q.
Proof. intros g p q H. inversion H; subst; [assumption|eapply own_builtin; [eassumption|reflexivity]]. Qed.

(** Rounds. *)
Lemma rounds_total : forall g rho e t min max (Q : N -> text -> text -> Prop) pre0 post0,
  (forall i pre post K, forward pre0 post0 (Ok pre post K) -> Q i pre post -> exists r, gpeg_round g rho e t i pre post K r /\
     match r with Fail => True | Ok pre' post' _ => Q (i + 1)%N pre' post' end) ->
  forall k i pre post K, (max <= i + N.of_nat k)%N -> forward pre0 post0 (Ok pre post K) -> Q i pre post ->
  exists r, gpeg_rounds g rho e t min max i pre post K r.
Proof.
  intros g rho e t min max Q pre0 post0 H. induction k as [|k IH]; intros i pre post K Le Fw HQ.
  { eexists. apply GR_max. lia. }
  destruct (N.le_gt_cases max i) as [L|L]; [eexists; apply GR_max, L|].
  destruct (H i pre post K Fw HQ) as ([|pre' post' K'] & R & HQ').
  - destruct (N.le_gt_cases min i) as [M|M]; [eexists; apply GR_stop; eassumption|eexists; apply GR_fail; eassumption].
  - destruct (IH (i + 1)%N pre' post' K') as (r & R'); [lia|eapply forward_trans; [exact Fw|]|exact HQ'|].
    + exact (proj2 (proj2 (proj2 gpeg_forward_all)) _ _ _ _ _ _ _ _ _ R).
    + exists r. eapply GR_round; eassumption.
Qed.
Lemma round_total : forall g rho e t, (t = TriviaNone \/ exists e', trivia_body g t e') -> forall i pre post K pre0 post0,
  forward pre0 post0 (Ok pre post K) ->
  (forall pre' post' K', forward pre0 post0 (Ok pre' post' K') -> has (Clo g rho e) pre' post' K') ->
  (forall e', (0 < i)%N -> trivia_body g t e' -> has (Clo g [] e') pre post K) ->
  exists r, gpeg_round g rho e t i pre post K r.
Proof.
  intros g rho e t D i pre post K pre0 post0 Fw Body Tr. destruct (N.eq_dec i 0) as [->|Ni].
  - destruct (gitems_total g rho [It_expr e] [] pre post K pre post K) as (r & R); [constructor; [exact I|constructor]|apply GI_nil| |exists r; apply GR_first, R].
    intros a x b c pre' post' K' E O H. destruct a as [|y [|? ?]]; try discriminate E. injection E as <- <-. cbn in O. subst c. inversion H; subst. apply Body, Fw.
  - destruct (gitems_total g rho [It_trivia t; It_expr e] [] pre post K pre post K) as (r & R); [constructor; [exact D|constructor; [exact I|constructor]]|apply GI_nil| |exists r; apply GR_later; [lia|exact R]].
    intros a x b c pre' post' K' E O H. destruct a as [|y [|z [|? ?]]]; try discriminate E; injection E; intros; subst.
    + destruct O as (e' & -> & T). cbn [app] in H. inversion H; subst. apply Tr; [lia|exact T].
    + cbn in O. subst c. apply Body. eapply forward_trans; [exact Fw|]. eapply gitems_forward, H.
Qed.
Lemma round_pass : forall g rho e t i pre post K K', gpeg_round g rho e t i pre post K (Ok pre post K') -> can_be_empty (Clo g rho e).
Proof.
  intros g rho e t i pre post K K' H. inversion H; subst; eapply gitems_pass; try eassumption;
    [left; reflexivity|reflexivity|right; left; reflexivity|reflexivity].
Qed.

(** Every expression has a result at every place. *)
Lemma gtotal : forall len c, Acc (fun b a => starts a b) c -> proper c ->
  (forall d, pieces c d -> forall pre post K, length post < len -> has d pre post K) ->
  forall pre post K, length post <= len -> has c pre post K.
Proof.
  intros len c Ac. induction Ac as [c _ IH]. intros Pr Sh pre post K Le.
  assert (Same : forall d K', starts c d -> piece c d -> has d pre post K').
  { intros d K' St Pc. apply (IH d St); [eapply piece_proper; eassumption| |exact Le].
    intros d' R. apply Sh. eapply rt_trans; [apply rt_step, Pc|exact R]. }
  assert (Any : forall d pre' post' K', piece c d -> forward pre post (Ok pre' post' K') ->
    (pre' = pre -> post' = post -> starts c d) -> has d pre' post' K').
  { intros d pre' post' K' Pc Fw St. destruct (forward_length _ _ _ _ _ Fw) as [L|(E & E')].
    - apply Sh; [apply rt_step, Pc|lia].
    - rewrite E, E'. apply Same; [exact (St E E')|exact Pc]. }
  clear IH. destruct c as [g rho e]. inversion Pr as [? ? ? C F W A R0]; subst. unfold has.
  assert (Op : forall e', operand_of e' e -> ~ is_path e -> ~ is_seq e -> forall K', has (Clo g rho e') pre post K').
  { intros e' O N1 N2 K'. apply Same; [apply ST_operand|apply PC_operand]; assumption. }
  assert (Np : forall e', e = e' -> (forall path args, e' <> PPath path args) -> ~ is_path e) by (intros e' -> N (path & args & Z); exact (N _ _ Z)).
  assert (Ns : forall e', e = e' -> (forall l r t, e' <> PSeq l r t) -> ~ is_seq e) by (intros e' -> N (l & r & t & Z); exact (N _ _ _ Z)).
  assert (Rep : forall n min max, repetition e n min max -> ~ is_path e -> ~ is_seq e -> operand_of (n_expr n) e -> exists r, gpeg g rho e pre post K r).
  { intros n min max Rp N1 N2 O.
    assert (exists t, round_trivia (n_expr n) t /\ (t = TriviaNone \/ exists e', trivia_body g t e')) as (t & Rt & D).
    { destruct (n_expr n) as [| | | | | | | | | | | |m t] eqn:E;
        try (exists TriviaNone; split; [right; split; [congruence|reflexivity]|left; reflexivity]).
      exists t. split; [left; exists m; reflexivity|]. apply A. right. exists m. eapply Part_in; [|exact O]. rewrite <- E. constructor. }
    destruct (rounds_total g rho (n_expr n) t min max (fun i pre' post' => i = 0%N \/ (pre' = pre -> post' = post -> can_be_empty (Clo g rho (n_expr n)))) pre post)
      with (k := N.to_nat max) (i := 0%N) (pre := pre) (post := post) (K := K) as (r & H);
      [|lia|apply forward_refl|left; reflexivity|exists r; eapply G_repeat; eassumption].
    intros i pre1 post1 K1 Fw Q. destruct (round_total g rho (n_expr n) t D i pre1 post1 K1 pre post Fw) as (r & R).
    - intros pre' post' K' Fw'. apply Any; [apply PC_operand; assumption|exact Fw'|]. intros _ _. apply ST_operand; assumption.
    - intros e' Li T. destruct Q as [->|Q]; [lia|]. apply Any; [eapply PC_rep_trivia; eassumption|exact Fw|].
      intros E E'. eapply ST_rep_trivia; try eassumption. exact (Q E E').
    - exists r. split; [exact R|]. destruct r as [|pre2 post2 K2]; [exact I|]. right. intros -> ->.
      pose proof (proj2 (proj2 (proj2 gpeg_forward_all)) _ _ _ _ _ _ _ _ _ R) as Fw'.
      destruct (forward_antisym _ _ _ _ _ _ Fw Fw') as (-> & ->). eapply round_pass, R. }
  destruct e.
  all: try (assert (N1 := Np _ eq_refl ltac:(discriminate)); assert (N2 := Ns _ eq_refl ltac:(discriminate))).
  - destruct (terminal_total' (Str s) pre post K eq_refl) as (r & H). exists r. apply G_str. inversion H; subst. assumption.
  - destruct (terminal_total' (Insens s) pre post K eq_refl) as (r & H). exists r. apply G_insens, H.
  - destruct (one_char_total (between a b) pre post K) as (r & H); [intro c; unfold between, char in *; lia|]. exists r. apply G_range, H.
  - clear Op Rep Np Ns. inversion W as [x args' I E1|path' args' x Nn Nm Tk Wa E1|e N _ E1]; subst.
    + destruct (assoc_exists x rho I) as ([g' rho' e'] & As).
      destruct (Same (Clo g' rho' e') K (ST_name _ _ _ _ (SF_param _ _ _ _ _ _ As)) (PC_name _ _ _ (SF_param _ _ _ _ _ _ As))) as (r & H).
      exists r. eapply G_param; eassumption.
    + assert (NoP : no_parameter rho path) by (intros y c E As; exact (Nn y E (assoc_param _ _ _ As))).
      destruct x as [q|g' r'].
      * assert (Bq := names_builtin g path q Nm). inversion Tk as [| |q' Nq|E1 E2|E1 E2|y E1 E2]; subst.
        -- destruct args as [[l|range]|]; try discriminate. destruct (builtin_total q pre post K Bq Nq) as (r & H).
           exists r. eapply G_builtin; [exact NoP|exact Nm|left; reflexivity|exact H].
        -- destruct args as [[l|range]|]; try discriminate E2. destruct l as [|n [|? ?]]; try discriminate E2.
           assert (Sf : stands_for unicode (Clo g rho (PPath path (Some (PCall [n])))) (Clo g rho (n_expr n))) by (apply SF_push; assumption).
           destruct (Same _ K (ST_name _ _ _ _ Sf) (PC_name _ _ _ Sf)) as ([|pre' post' K'] & H).
           ++ eexists. eapply G_push_fail; eassumption.
           ++ pose proof (gpeg_forward _ _ _ _ _ _ _ H) as (m & -> & ->). eexists. eapply G_push_ok; eassumption.
        -- destruct args as [[l|range]|]; try discriminate E2.
           assert (exists a, r_start range = Some a \/ r_start range = None /\ a = 0%Z) as (a & Ha) by (destruct (r_start range) as [a|]; eauto).
           destruct (r_end range) as [b|] eqn:Eb.
           ++ destruct (terminal_total' (PeekSlice2 a b) pre post K eq_refl) as (r & H). exists r. eapply G_slice; try eassumption. right. exists b. auto.
           ++ destruct (terminal_total' (PeekSlice1 a) pre post K eq_refl) as (r & H). exists r. eapply G_slice; try eassumption. left. auto.
        -- destruct args as [[l|range]|]; try discriminate E2. destruct l as [|n l]; try discriminate E2.
           destruct (builtin_total [lit "unicode"; y] pre post K Bq) as (r & H); [discriminate|].
           exists r. eapply G_builtin; [exact NoP|exact Nm|right; split; [reflexivity|exists y; reflexivity]|exact H].
      * assert (exists l, call_arguments args l /\ length l = length (pr_args r')) as (l & Ca & L).
        { inversion Tk as [? ? Na E1 E2|? ? E1 E2| | | |]; subst; destruct args as [[l|range]|]; try discriminate.
          - exists []. split; [right; auto|rewrite Na; reflexivity].
          - exists l. split; [left; reflexivity|]. cbn in E2. congruence. }
        assert (Sf := SF_rule unicode g rho path args l g' r' NoP Nm Ca L).
        destruct (Same _ K (ST_name _ _ _ _ Sf) (PC_name _ _ _ Sf)) as (r & H). exists r. eapply G_rule; eassumption.
    + exfalso. eapply N. reflexivity.
  - destruct (Op (n_expr n) (Op_pos n) N1 N2 K) as ([|? ? ?] & H); eexists; [apply G_positive_fail, H|eapply G_positive_ok, H].
  - destruct (Op (n_expr n) (Op_neg n) N1 N2 K) as ([|? ? ?] & H); eexists; [apply G_negative_ok, H|eapply G_negative_fail, H].
  - assert (N1 := Np _ eq_refl ltac:(discriminate)).
    assert (D : t = TriviaNone \/ exists e', trivia_body g t e') by (apply A; left; exists lhs, rhs; constructor).
    destruct (gitems_total g rho [It_expr (n_expr lhs); It_trivia t; It_expr (n_expr rhs)] [] pre post K pre post K) as (r & H);
      [constructor; [exact I|constructor; [exact D|constructor; [exact I|constructor]]]|apply GI_nil| |exists r; apply G_seq, H].
    intros a x b c pre' post' K' E O H. destruct a as [|y1 [|y2 [|y3 [|? ?]]]]; try discriminate E; injection E; intros; subst.
    + cbn in O. subst c. inversion H; subst. apply Same; [apply ST_seq_left|apply PC_operand; [constructor|exact N1]].
    + destruct O as (e' & -> & T). apply Any; [apply PC_seq_trivia, T|eapply gitems_forward, H|]. intros -> ->.
      apply ST_seq_trivia; [|exact T]. eapply gitems_pass; [exact H|left; reflexivity|reflexivity].
    + cbn in O. subst c. apply Any; [apply PC_operand; [constructor|exact N1]|eapply gitems_forward, H|]. intros -> ->.
      apply ST_seq_right; [eapply gitems_pass; [exact H|left; reflexivity|reflexivity]|]. intros e' T.
      eapply gitems_pass; [exact H|right; left; reflexivity|]. exists e'. auto.
  - destruct (Op (n_expr lhs) (Op_choice_l lhs rhs) N1 N2 K) as ([|? ? ?] & H); [|eexists; apply G_choice_left, H].
    destruct (Op (n_expr rhs) (Op_choice_r lhs rhs) N1 N2 K) as (r & H'). exists r. apply G_choice_right; assumption.
  - destruct (Op (n_expr n) (Op_opt n) N1 N2 K) as ([|? ? ?] & H); eexists; [apply G_opt_none, H|eapply G_opt_some, H].
  - apply (Rep n 0%N usize_max); [left; auto|exact N1|exact N2|constructor].
  - apply (Rep n 1%N usize_max); [right; left; auto|exact N1|exact N2|constructor].
  - assert (exists min, r_start range = Some min \/ r_start range = None /\ min = 0%N) as (min & Hm) by (destruct (r_start range); eauto).
    assert (exists max, r_end range = Some max \/ r_end range = None /\ max = usize_max) as (max & Hx) by (destruct (r_end range); eauto).
    apply (Rep n min max); [right; right; exists range; auto|exact N1|exact N2|constructor].
  - destruct (Op (n_expr n) (Op_separated n t) N1 N2 K) as (r & H). exists r. apply G_separated, H.
Qed.
Lemma pieces_proper : forall c d, pieces c d -> proper c -> proper d.
Proof. intros c d H. induction H as [c d H|c|c d f _ IH1 _ IH2]; intro P; [eapply piece_proper; eassumption|exact P|auto]. Qed.
Lemma gsettled : forall c, proper c -> not_left_recursive unicode property c -> forall pre post K, has c pre post K.
Proof.
  intros c P Wf. assert (H : forall len d, pieces c d -> forall pre post K, length post < len -> has d pre post K).
  { induction len as [|len IH]; intros d R pre post K L; [lia|].
    apply (gtotal len d); [apply Wf, R|eapply pieces_proper; eassumption| |lia].
    intros d' R'. apply IH. eapply rt_trans; eassumption. }
  intros pre post K. apply (H (S (length post)) c (rt_refl _ _ _)). lia.
Qed.

(** Finitely many expressions. *)
Lemma starts_piece : forall a b, starts a b -> piece a b.
Proof.
  intros a b H. destruct H; [apply PC_operand; assumption|apply PC_name; assumption| |apply PC_seq_trivia; assumption| |eapply PC_rep_trivia; eassumption];
    (apply PC_operand; [constructor|intros (? & ? & Z); discriminate Z]).
Qed.
Lemma pieces_closed : forall l a b, closed_grammar unicode l -> pieces a b -> In a l -> In b l.
Proof. intros l a b C H. induction H; eauto. Qed.
Lemma gfinite : forall l, closed_grammar unicode l -> (forall c, In c l -> ~ leads_back unicode property c) ->
  forall c, In c l -> not_left_recursive unicode property c.
Proof.
  intros l C N c Ic d R. assert (Id : In d l) by (eapply pieces_closed; eassumption).
  apply (Proof_Terminate.acyclic_acc closure starts l); [|exact N|exact Id]. intros a b Ia St. eapply C; [exact Ia|apply starts_piece, St].
Qed.
Lemma granked : forall l (rank : closure -> nat), closed_grammar unicode l ->
  (forall a b, In a l -> starts a b -> rank b < rank a) -> forall c, In c l -> ~ leads_back unicode property c.
Proof.
  intros l rank C H a Ia T.
  assert (G : forall b, clos_trans _ starts a b -> In b l /\ rank b < rank a).
  { intros b Hb. apply clos_trans_tn1 in Hb. induction Hb as [b Hb|b c Hb _ (I & L)].
    - split; [eapply C; [exact Ia|eapply starts_piece, Hb]|apply H; assumption].
    - split; [eapply C; [exact I|eapply starts_piece, Hb]|]. specialize (H b c I Hb). lia. }
  destruct (G a T). lia.
Qed.
Lemma str_not_empty : forall g rho x s, ~ can_be_empty (Clo g rho (PStr (x :: s))).
Proof.
  intros g rho x s (pre & post & K & K' & H). inversion H as [? ? ? ? ? ? ? O| | | | | | | | | | | | | | | | | |? ? ? ? ? ? ? ? ? ? ? [(Z & _)|[(Z & _)|(? & Z & _)]]|]; subst; try discriminate Z.
  inversion O; subst. apply (f_equal (@length char)) in H1. rewrite app_length in H1. cbn in H1. lia.
Qed.

(** Divergence. *)
Section Diverge.
Variable P : closure -> Prop.
Hypothesis step : forall c, P c -> exists d, opens unicode c d /\ P d.
Lemma no_result :
  (forall g rho e pre post K r, gpeg g rho e pre post K r -> ~ P (Clo g rho e)) /\
  (forall g rho l pre post K r, gpeg_items g rho l pre post K r -> forall e l', l = It_expr e :: l' -> ~ P (Clo g rho e)) /\
  (forall g rho e t min max i pre post K r, gpeg_rounds g rho e t min max i pre post K r -> i = 0%N -> (0 < max)%N -> ~ P (Clo g rho e)) /\
  (forall g rho e t i pre post K r, gpeg_round g rho e t i pre post K r -> i = 0%N -> ~ P (Clo g rho e)).
Proof.
  apply gpeg_mutind; intros.
  1-20: intro Q; destruct (step _ Q) as (d & O & Pd); inversion O; subst.
  all: try match goal with X : repetition (_ _) _ _ _ |- _ => solve [exfalso; destruct X as [(Z & _)|[(Z & _)|(? & Z & _)]]; discriminate Z] end.
  all: try contradiction.
  all: try (eapply H; [reflexivity|eassumption]).
  all: try match goal with X : stands_for _ _ _ |- _ => inversion X; subst; clear X end.
  all: try match goal with A : assoc ?x ?rho ?c, N : no_parameter _ _ |- _ => exfalso; exact (N x c eq_refl A) end.
  all: try match goal with A : assoc ?x ?rho ?c, N : forall x c, _ -> ~ assoc x _ c |- _ => exfalso; exact (N x c eq_refl A) end.
  all: try match goal with U : forall x y, names _ ?g ?p x -> names _ ?g ?p y -> x = y, A : names _ ?g ?p ?x, B : names _ ?g ?p ?y |- _ =>
    assert (Eq := U x y A B); (discriminate Eq || (lazymatch x with y => fail | _ => idtac end; injection Eq; intros; subst)) end.
  1: rewrite (assoc_unique _ _ _ a _ H7) in H; contradiction.
  1: { assert (l0 = l) as -> by (destruct c as [->|(-> & ->)]; destruct H9 as [E|(E & ->)]; congruence). contradiction. }
  1: { destruct o as [o|(o & _)]; discriminate o. }
  1-2: contradiction.
  1: { destruct (repetition_unique _ _ _ _ _ _ _ r0 H4) as (<- & <- & <-). exact (H eq_refl H5 Pd). }
  all: try match goal with E : _ = It_expr _ :: _ |- _ => first [discriminate E|injection E as <- <-; assumption] end.
  all: try (exfalso; lia).
  all: auto.
  eapply H. reflexivity.
Qed.
End Diverge.
End Total.
