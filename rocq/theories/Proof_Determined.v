(** Two parses that start with the same stack and give the same tree consume the same text, if no trivia
    is skipped. *)
From Coq Require Import List NArith ZArith Arith Bool Lia.
From Verif Require Import Model_Text Model_Position Model_Span Model_Stack Model_Tracker Model_Node
  Spec_Text Spec_Peg Spec_Run Spec_Lossless Proof_Text Proof_Peg Proof_Run Proof_Complete
  Proof_Yield Proof_Terminal Proof_Lossless.
Import ListNotations.
Open Scope list_scope.

Lemma round_one : forall addr s env property chain pol t trivia i pre post K pre' post' K' vs tr,
  run_items addr s env property chain pol (kept_round t trivia i) pre post K (ROk pre' post' K' vs) tr -> exists v, vs = [v].
Proof.
  intros until tr. intro H. unfold kept_round in H. destruct (N.eq_dec i 0); inversion H; subst.
  - match goal with A : run_items _ _ _ _ _ _ [] _ _ _ _ _ |- _ => inversion A; subst end. eexists. reflexivity.
  - match goal with A : run_items _ _ _ _ _ _ [_] _ _ _ _ _ |- _ => inversion A; subst end.
    match goal with A : run_items _ _ _ _ _ _ [] _ _ _ _ _ |- _ => inversion A; subst end. eexists. reflexivity.
Qed.
Lemma empty_run : forall addr s env property chain pol pre post K pre' post' K' v tr,
  run addr s env property chain pol Empty pre post K (ROk pre' post' K' v) tr -> pre' = pre /\ K' = K.
Proof.
  intros until tr. intro H. inversion H; subst. split; [|reflexivity].
  match goal with A : terminal _ _ _ _ Empty _ |- _ => inversion A; congruence end.
Qed.
Lemma choice_index : forall addr s env property ts chain pol i pre post K pre' post' K' v tr,
  run_choice addr s env property chain pol i ts pre post K (ROk pre' post' K' v) tr -> exists j w, v = VChoice j w /\ i <= j.
Proof.
  intros addr s env property ts. induction ts as [|t ts IH]; intros until tr; intro H; inversion H; subst.
  - eexists _, _. split; [reflexivity|lia].
  - match goal with A : run_choice _ _ _ _ _ _ _ _ _ _ _ _ _ |- _ => apply IH in A; destruct A as (j & w & -> & L) end.
    exists j, w. split; [reflexivity|lia].
Qed.

Lemma stack_texts_unique : forall K Ks Ks', Forall2 span_text K Ks -> Forall2 span_text K Ks' -> Ks = Ks'.
Proof.
  intros K Ks Ks' H. revert Ks'. induction H as [|a m K Ks A H IH]; intros Ks' B; inversion B; subst; [reflexivity|].
  f_equal; [eapply span_text_unique; eassumption|apply IH; assumption].
Qed.

Section Determined.
Variable env : rule -> rule_def.
Variables addr addr2 : N.
Variables s s2 : text.
Variables property property2 : N -> char -> bool.
Notation runs := (run addr s env property).
Notation runs_items := (run_items addr s env property).
Notation runs_choice := (run_choice addr s env property).
Notation runs_rep := (run_rep addr s env property).
Notation runs2 := (run addr2 s2 env property2).
Notation runs2_items := (run_items addr2 s2 env property2).
Notation runs2_choice := (run_choice addr2 s2 env property2).
Notation runs2_rep := (run_rep addr2 s2 env property2).

(** The same text is consumed and the stacks left have the same texts. *)
Definition alike (pre pre2 pre' pre2' : text) (K' K2' : list span) : Prop :=
  exists m Ks', pre' = pre ++ m /\ pre2' = pre2 ++ m /\ Forall2 span_text K' Ks' /\ Forall2 span_text K2' Ks'.
Definition is_split (t pre post : text) : Prop := t = pre ++ post.
Definition follows {V : Type} (same : V -> V -> Prop)
  (R : text -> text -> list span -> rresult V -> Prop) (pre post : text) (K : list span) (r : rresult V) : Prop :=
  is_split s pre post -> forall Ks, Forall2 span_text K Ks ->
  match r with
  | RFail => True
  | ROk pre' _ K' v => forall pre2 post2 K2 pre2' post2' K2' v2, is_split s2 pre2 post2 -> Forall2 span_text K2 Ks ->
      R pre2 post2 K2 (ROk pre2' post2' K2' v2) -> same v v2 -> alike pre pre2 pre' pre2' K' K2'
  end.

Lemma alike_nothing : forall pre pre2 K K2 Ks, Forall2 span_text K Ks -> Forall2 span_text K2 Ks -> alike pre pre2 pre pre2 K K2.
Proof. intros. exists [], Ks. rewrite !app_nil_r. auto. Qed.
Lemma alike_then : forall pre pre2 pre' pre2' pre'' pre2'' K' K2' K'' K2'',
  alike pre pre2 pre' pre2' K' K2' -> alike pre' pre2' pre'' pre2'' K'' K2'' -> alike pre pre2 pre'' pre2'' K'' K2''.
Proof.
  intros until K2''. intros (m & Ks & -> & -> & _) (m' & Ks' & -> & -> & A & B). exists (m ++ m'), Ks'. rewrite !app_assoc. auto.
Qed.

Ltac same_stack :=
  repeat match goal with
  | A : one_char _ _ _ _ _ |- _ => apply one_char_shape in A; destruct A as (? & A & ? & ? & _)
  | A : one_text _ _ _ _ _ |- _ => apply one_text_shape in A; destruct A as (A & ? & ?)
  end; subst;
  repeat match goal with
  | A : ?p ++ _ = ?p ++ _ |- _ => apply app_inv_head in A; subst
  | A : ?p = ?p ++ _ |- _ => rewrite <- app_nil_r in A at 1; apply app_inv_head in A; subst
  end.
Lemma terminal_alike : forall n pre post K Ks m post' Ks' pre2 post2 K2 m2 post2' Ks2',
  s = pre ++ post -> s2 = pre2 ++ post2 -> Forall2 span_text K Ks -> Forall2 span_text K2 Ks ->
  terminal property pre post Ks n (Ok (pre ++ m) post' Ks') -> terminal property2 pre2 post2 Ks n (Ok (pre2 ++ m2) post2' Ks2') ->
  same_tree (terminal_value addr s n pre m K) (terminal_value addr2 s2 n pre2 m2 K2) -> m = m2 /\ Ks' = Ks2'.
Proof.
  intros until Ks2'. intros Es Es2 HK HK2 T T2 S.
  assert (W := terminal_spelled addr s env property _ _ _ _ _ _ _ _ Es HK T).
  assert (W2 := terminal_spelled addr2 s2 env property2 _ _ _ _ _ _ _ _ Es2 HK2 T2).
  assert (D : (forall x, Spec_Lossless.within env x n -> match x with PeekSlice1 _ | PeekSlice2 _ _ => False | Seq fields => Forall (fun f => snd f = Empty) (tl fields) | RepMinMax _ trivia _ _ => trivia = Empty | _ => True end) \/
    (exists a, n = PeekSlice1 a) \/ exists a b, n = PeekSlice2 a b).
  { destruct n; eauto; inversion T; left; intros x X; inversion X; subst; exact I. }
  destruct D as [D|D].
  - split.
    + eapply (proj1 (spelled_same env _ _ (skipped_empty _ _ _) (skipped_empty _ _ _))); [exact W|exact S|exact D|exact W2].
    + destruct n; inversion T; subst; inversion T2; subst; same_stack; try reflexivity; congruence.
  - destruct D as [(a & ->)|(a & b & ->)]; inversion T; subst; inversion T2; subst; same_stack;
      repeat match goal with A : stack_index_of ?l ?i ?k, B : stack_index_of ?l ?i ?k' |- _ => rewrite (stack_index_det l i k k' A B) in *; clear A end;
      split; reflexivity.
Qed.

Definition no_gap_item (bt : bool * node) : Prop := if fst bt then no_gaps env (snd bt) else snd bt = Empty.
Lemma fields_no_gap : forall fields, Forall (fun f => snd f = Empty) fields -> (forall t trivia, In (t, trivia) fields -> no_gaps env t) ->
  Forall no_gap_item (flat_map (fun f => [(false, snd f); (true, fst f)]) fields).
Proof.
  induction fields as [|(t, trivia) fields IH]; intros F N; [constructor|]. inversion F; subst. cbn [flat_map app].
  constructor; [assumption|]. constructor; [eapply N; left; reflexivity|]. apply IH; [assumption|]. intros. eapply N. right. eassumption.
Qed.
Lemma seq_no_gap : forall fields, no_gaps env (Seq fields) -> Forall no_gap_item (kept_fields fields).
Proof.
  intros fields N. assert (A := N _ (X_here _ _)). cbn beta iota in A.
  assert (B : forall t trivia, In (t, trivia) fields -> no_gaps env t) by (intros t trivia I x X; apply N; eapply X_seq; eauto).
  destruct fields as [|(t, trivia) fields]; [constructor|]. cbn [kept_fields tl] in *. constructor; [eapply B; left; reflexivity|].
  apply fields_no_gap; [exact A|]. intros. eapply B. right. eassumption.
Qed.

Ltac other := let R2 := fresh "R2" in let S := fresh "S" in
  intros pre2 post2 K2 pre2' post2' K2' v2 Hs2 HK2 (chain2 & pol2 & tr2 & R2) S; inversion R2; clear R2; subst;
  try (inversion S; fail); try (match goal with A : terminal _ _ _ _ (_ _) _ |- _ => inversion A end; fail).
Ltac given := match goal with
  | |- exists c p t, run _ _ _ _ c p _ _ _ _ _ t => eexists _, _, _; eassumption
  | |- exists c p t, run_items _ _ _ _ c p _ _ _ _ _ t => eexists _, _, _; eassumption
  | |- exists c p t, run_choice _ _ _ _ c p _ _ _ _ _ _ t => eexists _, _, _; eassumption
  | |- exists c p t, run_rep _ _ _ _ c p _ _ _ _ _ _ _ _ _ t => eexists _, _, _; eassumption
  end.
Lemma run_alike_all :
  (forall chain pol n pre post K r tr, runs chain pol n pre post K r tr -> no_gaps env n ->
     follows same_tree (fun pre2 post2 K2 r2 => exists chain2 pol2 tr2, runs2 chain2 pol2 n pre2 post2 K2 r2 tr2) pre post K r) /\
  (forall chain pol items pre post K r tr, runs_items chain pol items pre post K r tr -> Forall no_gap_item items ->
     follows (Forall2 same_tree) (fun pre2 post2 K2 r2 => exists chain2 pol2 tr2, runs2_items chain2 pol2 items pre2 post2 K2 r2 tr2) pre post K r) /\
  (forall chain pol (i : nat) ts pre post K r tr, runs_choice chain pol i ts pre post K r tr -> Forall (no_gaps env) ts ->
     follows same_tree (fun pre2 post2 K2 r2 => exists chain2 pol2 tr2, runs2_choice chain2 pol2 i ts pre2 post2 K2 r2 tr2) pre post K r) /\
  (forall chain pol x y mi ma i pre post K r tr, runs_rep chain pol x y mi ma i pre post K r tr -> no_gaps env x -> y = Empty ->
     follows (Forall2 same_tree) (fun pre2 post2 K2 r2 => exists chain2 pol2 tr2, runs2_rep chain2 pol2 x y mi ma i pre2 post2 K2 r2 tr2) pre post K r).
Proof.
  apply run_mutind; intros; intros Hs Ks0 HK; try exact I.
  - intros pre2 post2 K2 pre2' post2' K2' v2 Hs2 HK2 (chain2 & pol2 & tr2 & R2) S.
    rewrite (stack_texts_unique _ _ _ f HK) in *. inversion R2; subst; try (inversion t; fail).
    match goal with A : Forall2 span_text K2 ?k, B : terminal property2 _ _ ?k _ _ |- _ => rewrite (stack_texts_unique _ _ _ A HK2) in B; rename B into T2 end.
    destruct (terminal_alike _ _ _ _ _ _ _ _ _ _ _ _ _ _ Hs Hs2 HK HK2 t T2 S) as (-> & ->).
    destruct (terminal_shape _ _ _ _ _ _ _ _ _ HK t) as (_ & _ & _ & A). destruct (terminal_shape _ _ _ _ _ _ _ _ _ HK2 T2) as (_ & _ & _ & B).
    eexists _, _. split; [reflexivity|]. split; [reflexivity|]. split; eassumption.
  - other. eapply alike_nothing; eassumption.
  - other. eapply alike_nothing; eassumption.
  - other. inversion S; subst. assert (N : no_gaps env t) by (intros x X; apply H0; constructor; exact X).
    match goal with A : runs2 _ _ t _ _ _ _ _ |- _ => rename A into R2 end.
    assert (Al : alike pre pre2 pre' pre2' K' K'0) by (eapply (H N Hs _ HK); try eassumption; given).
    destruct Al as (m & Ks' & -> & -> & A & B).
    destruct (run_well addr s env property _ _ _ _ _ _ _ _ r Hs (ex_intro _ _ HK)) as (_ & W & _).
    destruct (run_well addr2 s2 env property2 _ _ _ _ _ _ _ _ R2 Hs2 (ex_intro _ _ HK2)) as (_ & W2 & _).
    exists m, (m :: Ks'). split; [reflexivity|]. split; [reflexivity|]. split; constructor; try assumption; eapply span_to_text; rewrite app_assoc; eassumption.
  - other. inversion S; subst. assert (N : no_gaps env t) by (intros x X; apply H0; constructor; exact X).
    eapply (H N Hs _ HK); try eassumption; given.
  - other. eapply alike_nothing; eassumption.
  - other. inversion S; subst. assert (N : no_gaps env t) by (intros x X; apply H0; constructor; exact X).
    eapply (H N (H0 _ (X_here _ _)) Hs _ HK); try eassumption; given.
  - other. inversion S; subst. eapply (H (seq_no_gap _ H0) Hs _ HK); try eassumption; given.
  - assert (N : Forall (no_gaps env) ts) by (apply Forall_forall; intros x X y Y; apply H0; eapply X_choice; eassumption).
    specialize (H N Hs _ HK). destruct r as [|pre' post' K' v]; [exact I|]. cbn beta iota in H. other. eapply H; try eassumption; given.
  - other. inversion S; subst. assert (N : no_gaps env (rd_body (env r) args)) by (intros x X; apply H0; constructor; exact X).
    eapply (H N Hs _ HK); try eassumption; given.
  - other. eapply alike_nothing; eassumption.
  - inversion H1 as [|? ? N N']; subst. other.
    assert (W := run_well addr s env property _ _ _ _ _ _ _ _ r Hs (ex_intro _ _ HK)). destruct W as (_ & W & _).
    match goal with A : runs2 _ _ t _ _ _ _ _ |- _ => rename A into R2; destruct (run_well addr2 s2 env property2 _ _ _ _ _ _ _ _ R2 Hs2 (ex_intro _ _ HK2)) as (_ & W2 & _) end.
    assert (Al : alike pre pre2 pre' pre'0 K' K'0 /\ Forall2 same_tree vs vs0).
    { unfold no_gap_item in N. destruct b; cbn [fst snd keep] in *.
      - inversion S; subst. split; [|assumption]. eapply (H N Hs _ HK); try eassumption; given.
      - subst t. split; [|assumption]. apply empty_run in r, R2. destruct r as (-> & ->). destruct R2 as (-> & ->). eapply alike_nothing; eassumption. }
    destruct Al as (Al & Sv). destruct Al as (m & Ks' & -> & -> & A & B).
    assert (Al : alike (pre ++ m) (pre2 ++ m) pre'' pre2' K'' K2') by (eapply (H0 N' W _ A); try eassumption; given).
    eapply alike_then; [|exact Al]. exists m, Ks'. repeat (split; [reflexivity|]). split; [exact A|exact B].
  - inversion H0; subst. other.
    + inversion S; subst. eapply (H ltac:(assumption) Hs _ HK); try eassumption; given.
    + match goal with A : runs2_choice _ _ _ _ _ _ _ _ _ |- _ => apply choice_index in A; destruct A as (j & w & -> & L) end. inversion S; subst. lia.
  - inversion H1; subst. specialize (H0 ltac:(assumption) Hs _ HK). destruct r as [|pre' post' K' v]; [exact I|]. cbn beta iota in H0.
    destruct (choice_index _ _ _ _ _ _ _ _ _ _ _ _ _ _ _ _ r1) as (j & w & -> & L). other.
    + inversion S; subst. lia.
    + eapply H0; try eassumption; given.
  - other; [eapply alike_nothing; eassumption|lia|eapply alike_nothing; eassumption].
  - destruct (round_one _ _ _ _ _ _ _ _ _ _ _ _ _ _ _ _ _ r) as (u & ->).
    assert (N : Forall no_gap_item (kept_round t trivia i)).
    { unfold kept_round. destruct (N.eq_dec i 0); repeat constructor; assumption. }
    other.
    match goal with A : runs2_items _ _ _ _ _ _ _ _ |- _ => rename A into R2; destruct (round_one _ _ _ _ _ _ _ _ _ _ _ _ _ _ _ _ _ R2) as (u2 & ->) end.
    inversion S; subst.
    destruct (proj1 (proj2 (run_peg_all addr s env property)) _ _ _ _ _ _ _ _ r Hs _ HK) as (x & _ & Ex & Ep & _).
    destruct (proj1 (proj2 (run_peg_all addr2 s2 env property2)) _ _ _ _ _ _ _ _ R2 Hs2 _ HK2) as (x2 & _ & Ex2 & Ep2 & _).
    assert (W : is_split s pre' post') by (unfold is_split in *; rewrite Ex, <- app_assoc, <- Ep; exact Hs).
    assert (W2 : is_split s2 pre'0 post'0) by (unfold is_split in *; rewrite Ex2, <- app_assoc, <- Ep2; exact Hs2).
    assert (Al : alike pre pre2 pre' pre'0 K' K'0).
    { eapply (H N Hs _ HK); try eassumption; [given|]. constructor; [assumption|constructor]. }
    destruct Al as (m & Ks' & E1 & E2 & A & B).
    assert (Al : alike pre' pre'0 pre'' pre2' K'' K2') by (eapply (H0 H1 eq_refl W _ A); try eassumption; given).
    eapply alike_then; [|exact Al]. exists m, Ks'. split; [exact E1|]. split; [exact E2|]. split; [exact A|exact B].
  - other; [eapply alike_nothing; eassumption| |eapply alike_nothing; eassumption].
    match goal with A : runs2_items _ _ _ _ _ _ _ _ |- _ => destruct (round_one _ _ _ _ _ _ _ _ _ _ _ _ _ _ _ _ _ A) as (u2 & ->) end. inversion S.
Qed.
End Determined.

Lemma parse_alike : forall addr s env property k n pre post K sv t p v st'
  addr2 s2 property2 k2 pre2 post2 K2 sv2 t2 p2 v2 st2' Ks,
  s = pre ++ post -> Forall2 span_text K Ks -> s2 = pre2 ++ post2 -> Forall2 span_text K2 Ks -> no_gaps env n ->
  try_parse addr s env property k n (blen pre) (mkState (mkStack K sv) t) = Ret (Some (p, v), st') ->
  try_parse addr2 s2 env property2 k2 n (blen pre2) (mkState (mkStack K2 sv2) t2) = Ret (Some (p2, v2), st2') ->
  same_tree v v2 ->
  exists m rest rest2 Ks', post = m ++ rest /\ post2 = m ++ rest2 /\ p = blen (pre ++ m) /\ p2 = blen (pre2 ++ m) /\
    Forall2 span_text (stk_items (st_stack st')) Ks' /\ Forall2 span_text (stk_items (st_stack st2')) Ks'.
Proof.
  intros until Ks. intros Hs HK Hs2 HK2 N H H2 S.
  destruct (sound addr s env property k n pre post K sv t Hs (ex_intro _ _ HK)) as [(_ & E)|(r & tr & HR & HF)]; [congruence|].
  destruct r as [|pre' post' K' w]; [destruct HF as (K' & _ & E); congruence|].
  destruct HF as (_ & _ & _ & _ & E). rewrite E in H. injection H as <- <- <-.
  destruct (sound addr2 s2 env property2 k2 n pre2 post2 K2 sv2 t2 Hs2 (ex_intro _ _ HK2)) as [(_ & E2)|(r2 & tr2 & HR2 & HF2)]; [congruence|].
  destruct r2 as [|pre2' post2' K2' w2]; [destruct HF2 as (K2' & _ & E2); congruence|].
  destruct HF2 as (_ & _ & _ & _ & E2). rewrite E2 in H2. injection H2 as <- <- <-.
  destruct (proj1 (run_alike_all env addr addr2 s s2 property property2) _ _ _ _ _ _ _ _ HR N Hs Ks HK pre2 post2 K2 pre2' post2' K2' w2 Hs2 HK2
    (ex_intro _ _ (ex_intro _ _ (ex_intro _ _ HR2))) S) as (m & Ks' & -> & -> & A & B).
  destruct (run_well addr s env property _ _ _ _ _ _ _ _ HR Hs (ex_intro _ _ HK)) as (_ & W & _).
  destruct (run_well addr2 s2 env property2 _ _ _ _ _ _ _ _ HR2 Hs2 (ex_intro _ _ HK2)) as (_ & W2 & _).
  exists m, post', post2', Ks'. rewrite W, <- app_assoc in Hs. rewrite W2, <- app_assoc in Hs2. apply app_inv_head in Hs, Hs2. repeat split; auto.
Qed.
