(** Trees say what was consumed, and determine it when no trivia is skipped. *)
From Coq Require Import List NArith ZArith Arith Bool Lia.
From Verif Require Import Model_Text Model_Position Model_Span Model_Stack Model_Tracker Model_Node
  Model_Pairs Spec_Text Spec_Peg Spec_Run Spec_Yield Spec_Pairs Spec_Lossless Proof_Text Proof_Peg Proof_Run Proof_Complete
  Proof_Yield Proof_Entry Proof_Pairs Proof_Terminal.
Import ListNotations.
Open Scope list_scope.

Section Spelled.
Variable addr : N.
Variable s : text.
Variable env : rule -> rule_def.
Variable property : N -> char -> bool.
Notation runs := (run addr s env property).
Notation runs_items := (run_items addr s env property).
Notation runs_choice := (run_choice addr s env property).
Notation runs_rep := (run_rep addr s env property).
Notation gap := (skipped s env property).
Notation spelled := (spells env gap).

(** A list of expressions, those marked being kept. *)
Inductive spells_items : list (bool * node) -> list value -> text -> Prop :=
| SI_nil : spells_items [] [] []
| SI_kept t ts v vs m ms : spelled t v m -> spells_items ts vs ms -> spells_items ((true, t) :: ts) (v :: vs) (m ++ ms)
| SI_gap t ts vs g ms : gap t g -> spells_items ts vs ms -> spells_items ((false, t) :: ts) vs (g ++ ms).

Lemma fields_spelled : forall fields vs m,
  spells_items (flat_map (fun f => [(false, snd f); (true, fst f)]) fields) vs m ->
  spells_fields env gap false fields vs m.
Proof.
  induction fields as [|(t, trivia) fields IH]; intros vs m H; cbn [flat_map app fst snd] in H.
  - inversion H; subst. constructor.
  - inversion H; subst. match goal with A : spells_items ((true, _) :: _) _ _ |- _ => inversion A; subst end.
    constructor; auto.
Qed.
Lemma seq_spelled : forall fields vs m, spells_items (kept_fields fields) vs m -> spells_fields env gap true fields vs m.
Proof.
  intros [|(t, trivia) fields] vs m H; cbn [kept_fields] in H.
  - inversion H; subst. constructor.
  - inversion H; subst. constructor; [assumption|]. apply fields_spelled. assumption.
Qed.

Definition said {V : Type} (P : V -> text -> Prop) (pre post : text) (K : list span) (r : rresult V) : Prop :=
  s = pre ++ post -> valid_stack K ->
  match r with RFail => True | ROk pre' _ _ v => exists m, pre' = pre ++ m /\ P v m end.

Lemma terminal_spelled : forall n pre post K Ks m post' Ks',
  s = pre ++ post -> Forall2 span_text K Ks -> terminal property pre post Ks n (Ok (pre ++ m) post' Ks') ->
  spelled n (terminal_value addr s n pre m K) m.
Proof.
  intros n pre post K Ks m post' Ks' Es HK T.
  inversion T; subst;
    repeat match goal with
    | A : one_char _ _ _ _ _ |- _ => inversion A; clear A; subst
    | A : one_text _ _ _ _ _ |- _ => inversion A; clear A; subst
    end;
    repeat match goal with
    | A : pre ++ _ = pre ++ _ |- _ => apply app_inv_head in A; subst
    | A : pre = pre ++ _ |- _ => rewrite <- app_nil_r in A at 1; apply app_inv_head in A; subst
    end; cbn [terminal_value]; try (constructor; fail).
  all: try (constructor; exists pre, post'; cbn [sp_input sp_start sp_end span_to]; repeat split; auto; fail).
  match goal with A : Forall2 span_text _ _ |- _ => inversion A; subst end. constructor. assumption.
Qed.

Lemma run_skipped : forall chain pol t pre post K pre' post' K' v tr,
  runs chain pol t pre post K (ROk pre' post' K' v) tr -> s = pre ++ post -> valid_stack K ->
  exists g, pre' = pre ++ g /\ gap t g.
Proof.
  intros chain pol t pre post K pre' post' K' v tr H Es (Ks & HK).
  destruct (run_peg addr s env property _ _ _ _ _ _ _ _ H Es Ks HK) as (m & Ks' & -> & -> & HK' & P).
  exists m. split; [reflexivity|]. exists pre, post', Ks, Ks'. split; [exact Es|exact P].
Qed.

Lemma run_spelled_all :
  (forall chain pol n pre post K r tr, runs chain pol n pre post K r tr -> said (spelled n) pre post K r) /\
  (forall chain pol items pre post K r tr, runs_items chain pol items pre post K r tr -> said (spells_items items) pre post K r) /\
  (forall chain pol (i : nat) ts pre post K r tr, runs_choice chain pol i ts pre post K r tr ->
     said (fun v m => exists j t w, v = VChoice (i + j) w /\ nth_error ts j = Some t /\ spelled t w m) pre post K r) /\
  (forall chain pol x y mi ma i pre post K r tr, runs_rep chain pol x y mi ma i pre post K r tr ->
     said (spells_rounds env gap x y (N.eqb i 0)) pre post K r).
Proof.
  apply run_mutind; intros; intros Hs HK; try exact I;
    try (specialize (H Hs HK); cbn beta iota in H).
  - exists m. split; [reflexivity|]. eapply terminal_spelled; eauto.
  - exists []. rewrite app_nil_r. split; [reflexivity|constructor].
  - exists []. rewrite app_nil_r. split; [reflexivity|constructor].
  - destruct H as (m & -> & H). exists m. split; [reflexivity|constructor; exact H].
  - destruct H as (m & -> & H). exists m. split; [reflexivity|constructor; exact H].
  - exists []. rewrite app_nil_r. split; [reflexivity|constructor].
  - destruct H as (m & -> & H). exists m. split; [reflexivity|constructor; exact H].
  - destruct H as (m & -> & H). exists m. split; [reflexivity|constructor; apply seq_spelled; exact H].
  - destruct r as [|pre' post' K' v]; [exact I|]. destruct H as (m & -> & j & t & w & -> & N & H).
    exists m. split; [reflexivity|]. econstructor; eauto.
  - destruct (run_well addr s env property _ _ _ _ _ _ _ _ r0 Hs HK) as (_ & W1 & W2).
    destruct H as (m & -> & H). exists m. split; [reflexivity|]. constructor; [exact H|].
    apply (span_to_text addr s pre m post'). rewrite app_assoc. exact W1.
  - exists []. rewrite app_nil_r. split; [reflexivity|constructor].
  - destruct (run_well addr s env property _ _ _ _ _ _ _ _ r Hs HK) as (_ & W1 & W2).
    specialize (H0 W1 W2). cbn beta iota in H0. destruct H0 as (ms & -> & H0).
    destruct b; cbn [keep].
    + destruct H as (m & -> & H). exists (m ++ ms). split; [symmetry; apply app_assoc|]. constructor; auto.
    + destruct (run_skipped _ _ _ _ _ _ _ _ _ _ _ r Hs HK) as (g & -> & G).
      exists (g ++ ms). split; [symmetry; apply app_assoc|]. constructor; auto.
  - destruct H as (m & -> & H). exists m. split; [reflexivity|]. exists 0, t, v. rewrite Nat.add_0_r. auto.
  - destruct r as [|pre' post' K' v]; [exact I|]. specialize (H0 Hs HK). cbn beta iota in H0.
    destruct H0 as (m & -> & j & t' & w & -> & N & H0). exists m. split; [reflexivity|].
    exists (Datatypes.S j), t', w. rewrite Nat.add_succ_r. auto.
  - exists []. rewrite app_nil_r. split; [reflexivity|constructor].
  - destruct (run_items_well addr s env property _ _ _ _ _ _ _ _ r Hs HK) as (_ & W1 & W2).
    specialize (H0 W1 W2). cbn beta iota in H0. destruct H0 as (ms & -> & H0). destruct H as (m & -> & H).
    exists (m ++ ms). split; [symmetry; apply app_assoc|].
    replace (i + 1 =? 0)%N with false in H0 by (symmetry; apply N.eqb_neq; lia).
    unfold kept_round in H. destruct (N.eq_dec i 0) as [->|Ni].
    + inversion H; subst. match goal with A : spells_items [] _ _ |- _ => inversion A; subst end.
      rewrite app_nil_r. constructor; auto.
    + replace (i =? 0)%N with false by (symmetry; apply N.eqb_neq; exact Ni).
      inversion H; subst. match goal with A : spells_items [_] _ _ |- _ => inversion A; subst end.
      match goal with A : spells_items [] _ _ |- _ => inversion A; subst end.
      rewrite app_nil_r, <- app_assoc. constructor; auto.
  - exists []. rewrite app_nil_r. split; [reflexivity|constructor].
Qed.

Lemma parse_spelled : forall k n pre post K sv t p' v st', s = pre ++ post -> valid_stack K ->
  try_parse addr s env property k n (blen pre) (mkState (mkStack K sv) t) = Ret (Some (p', v), st') ->
  exists m post', post = m ++ post' /\ p' = blen (pre ++ m) /\ spelled n v m.
Proof.
  intros k n pre post K sv t p' v st' Hs HK H.
  destruct (sound addr s env property k n pre post K sv t Hs HK) as [(_ & E)|(r & tr & HR & HF)];
    [congruence|].
  destruct r as [|pre' post' K' w].
  - destruct HF as (K' & _ & E). congruence.
  - destruct HF as (_ & _ & _ & _ & E). rewrite E in H. injection H as <- <- <-.
    destruct (run_well addr s env property _ _ _ _ _ _ _ _ HR Hs HK) as (_ & W1 & W2).
    destruct (proj1 run_spelled_all _ _ _ _ _ _ _ _ HR Hs HK) as (m & -> & P).
    exists m, post'. repeat split; [|exact P]. rewrite W1 in Hs. rewrite <- app_assoc in Hs. apply app_inv_head in Hs. auto.
Qed.
End Spelled.

(** What trees determine. *)
Section Determined.
Variable env : rule -> rule_def.

Lemma span_text_unique : forall a m m', span_text a m -> span_text a m' -> m = m'.
Proof.
  intros a m m' (x & y & E & A & B) (x' & y' & E' & A' & B').
  rewrite E in E'. assert (x = x' /\ m ++ y = m' ++ y') as (-> & E2) by (eapply split_unique; eauto; congruence).
  assert (m = m' /\ y = y') as (-> & _); [|reflexivity].
  eapply split_unique; [exact E2|]. rewrite !blen_app in *. lia.
Qed.

Definition only_empty (gap : node -> text -> Prop) : Prop := forall g, gap Empty g -> g = [].

Variables gap gap' : node -> text -> Prop.
Hypothesis G : only_empty gap.
Hypothesis G' : only_empty gap'.

Lemma spelled_same :
  (forall n v m, spells env gap n v m -> forall w m', same_tree v w -> keeps_all env n ->
     spells env gap' n w m' -> m = m') /\
  (forall b fields vs m, spells_fields env gap b fields vs m -> forall ws m', Forall2 same_tree vs ws ->
     (forall t trivia, In (t, trivia) fields -> keeps_all env t) ->
     Forall (fun f => snd f = Empty) (if b then tl fields else fields) ->
     spells_fields env gap' b fields ws m' -> m = m') /\
  (forall t trivia b vs m, spells_rounds env gap t trivia b vs m -> forall ws m', Forall2 same_tree vs ws ->
     keeps_all env t -> trivia = Empty -> spells_rounds env gap' t trivia b ws m' -> m = m').
Proof.
  apply spells_mutind; intros;
    try match goal with A : same_tree _ _ |- _ => inversion A; clear A; subst end;
    try match goal with A : spells _ gap' _ _ _ |- _ => inversion A; clear A; subst end;
    try reflexivity;
    try match goal with A : span_text ?a ?m, B : span_text ?a ?x, C : span_text ?b ?x, D : span_text ?b ?m' |- ?m = ?m' =>
      rewrite (span_text_unique a m x A B); exact (span_text_unique b x m' C D) end.
  all: try match goal with A : keeps_all _ (PeekSlice2 _ _) |- _ => destruct (A _ (X_here _ _)) end;
       try match goal with A : keeps_all _ (PeekSlice1 _) |- _ => destruct (A _ (X_here _ _)) end.
  - eapply H; eauto. intros x X. apply H1. constructor; exact X.
  - eapply H; eauto. intros x X. apply H1. constructor; exact X.
  - assert (t0 = t) by congruence. subst t0. eapply H; eauto. intros x X. apply H1. eapply X_choice; eauto using nth_error_In.
  - eapply H; eauto. intros x X. apply H1. constructor; exact X.
  - eapply H; eauto.
    + intros t trivia I x X. apply H1. eapply X_seq; eauto.
    + exact (H1 _ (X_here _ _)).
  - eapply H; eauto.
    + intros x X. apply H1. constructor; exact X.
    + exact (H1 _ (X_here _ _)).
  - inversion H; subst. inversion H2; subst; reflexivity.
  - inversion H1; subst. inversion H4; subst. f_equal.
    + eapply H; eauto. eapply H2. left. reflexivity.
    + eapply H0; eauto. intros. eapply H2. right. eassumption.
  - inversion H1; subst. inversion H4; subst. inversion H3; subst. cbn [snd] in *. subst trivia.
    repeat match goal with A : gap Empty _ |- _ => apply G in A; subst | A : gap' Empty _ |- _ => apply G' in A; subst end. cbn [app]. f_equal.
    + eapply H; eauto. eapply H2. left. reflexivity.
    + eapply H0; eauto. intros. eapply H2. right. eassumption.
  - inversion H; subst. inversion H2; subst; reflexivity.
  - inversion H1; subst. inversion H4; subst. f_equal; eauto.
  - inversion H1; subst. inversion H4; subst. repeat match goal with A : gap Empty _ |- _ => apply G in A; subst | A : gap' Empty _ |- _ => apply G' in A; subst end. cbn [app]. f_equal; eauto.
Qed.
End Determined.

Lemma skipped_empty : forall s env property, only_empty (skipped s env property).
Proof.
  intros s env property g (pre & post & K & K' & _ & P). inversion P; subst.
  match goal with A : terminal _ _ _ _ _ _ |- _ => inversion A; subst end.
  match goal with A : pre = pre ++ _ |- _ => rewrite <- app_nil_r in A at 1; apply app_inv_head in A; subst end. reflexivity.
Qed.

Lemma parse_determined : forall addr s env property k n pre post K sv t v st'
  addr2 s2 property2 k2 pre2 post2 K2 sv2 t2 v2 st2' m m2 rest rest2,
  s = pre ++ post -> valid_stack K -> s2 = pre2 ++ post2 -> valid_stack K2 -> keeps_all env n ->
  post = m ++ rest -> post2 = m2 ++ rest2 ->
  try_parse addr s env property k n (blen pre) (mkState (mkStack K sv) t) = Ret (Some (blen (pre ++ m), v), st') ->
  try_parse addr2 s2 env property2 k2 n (blen pre2) (mkState (mkStack K2 sv2) t2) = Ret (Some (blen (pre2 ++ m2), v2), st2') ->
  same_tree v v2 -> m = m2.
Proof.
  intros until rest2. intros Es HK Es2 HK2 KA Ep Ep2 P P2 ST.
  destruct (parse_spelled _ _ _ _ _ _ _ _ _ _ _ _ _ _ Es HK P) as (x & y & E1 & E2 & S1).
  destruct (parse_spelled _ _ _ _ _ _ _ _ _ _ _ _ _ _ Es2 HK2 P2) as (x2 & y2 & E3 & E4 & S2).
  assert (m = x /\ rest = y) as (-> & ->) by (eapply split_unique; [congruence|]; rewrite !blen_app in E2; lia).
  assert (m2 = x2 /\ rest2 = y2) as (-> & ->) by (eapply split_unique; [congruence|]; rewrite !blen_app in E4; lia).
  eapply (proj1 (spelled_same env _ _ (skipped_empty _ _ _) (skipped_empty _ _ _))); eauto.
Qed.
