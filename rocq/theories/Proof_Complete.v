From Coq Require Import List NArith ZArith Arith Bool Lia ZifyBool ZifyNat ZifyN.
From Verif Require Import Model_Text Model_Position Model_Span Model_Stack Model_Tracker Model_Node
  Spec_Text Spec_Peg Spec_Run Spec_Tracker Proof_Text Proof_Position Proof_Span Proof_Tracker
  Proof_Terminal Proof_Run.
Import ListNotations.
Open Scope list_scope.

(** ** Determinism *)
Lemma one_text_det : forall t pre post K r r',
  one_text t pre post K r -> one_text t pre post K r' -> r = r'.
Proof.
  intros t pre post K r r' H H'. inversion H; inversion H'; subst; auto.
  - apply app_inv_head in H2. subst. reflexivity.
  - exfalso. apply H2. exists r0. reflexivity.
  - exfalso. apply H0. exists r0. reflexivity.
Qed.
Lemma one_char_det : forall P pre post K r r',
  one_char P pre post K r -> one_char P pre post K r' -> r = r'.
Proof.
  intros P pre post K r r' H H'. inversion H; inversion H'; subst; auto.
  - apply cons_eq in H3. destruct H3 as (-> & ->). reflexivity.
  - exfalso. eapply H3; eauto.
  - exfalso. eapply H0; eauto.
Qed.
Lemma stack_index_det : forall len i k k', stack_index_of len i k -> stack_index_of len i k' -> k = k'.
Proof. unfold stack_index_of. lia. Qed.
Lemma app_same_length : forall (A : Type) (m r m' r' : list A), m ++ r = m' ++ r' ->
  length m = length m' -> m = m' /\ r = r'.
Proof.
  intros A m. induction m as [|x m IH]; intros r [|y m'] r' H L; simpl in *; try discriminate; auto.
  apply cons_eq in H. destruct H as (-> & H). destruct (IH r m' r' H) as (-> & ->); auto.
Qed.
Lemma fold_prefix_det : forall t m r m' r', m ++ r = m' ++ r' ->
  map ascii_fold m = map ascii_fold t -> map ascii_fold m' = map ascii_fold t -> m = m' /\ r = r'.
Proof.
  intros t m r m' r' H H1 H2.
  assert (L : length m = length m').
  { apply (f_equal (@length char)) in H1, H2. rewrite !map_length in H1, H2. congruence. }
  apply app_same_length in H; auto.
Qed.

Lemma terminal_det : forall property pre post K n r r',
  terminal property pre post K n r -> terminal property pre post K n r' -> r = r'.
Proof.
  intros property pre post K n r r' H H'.
  destruct H; inversion H'; subst;
    try reflexivity; try congruence; try discriminate;
    try (eapply one_text_det; eassumption); try (eapply one_char_det; eassumption).
  - match goal with E : _ ++ _ = _ ++ _ |- _ =>
      destruct (fold_prefix_det _ _ _ _ _ E ltac:(eassumption) ltac:(eassumption)) end.
    subst. reflexivity.
  - exfalso. match goal with F : forall m r, _ -> _ <> _ |- _ => eapply F; eauto end.
  - exfalso. match goal with F : forall m r, _ -> _ <> _ |- _ => eapply F; eauto end.
  - match goal with E : _ ++ _ = _ ++ _ |- _ => apply app_same_length in E; [destruct E; subst; reflexivity|congruence] end.
  - exfalso. rewrite app_length in *. lia.
  - exfalso. rewrite app_length in *. lia.
  - exfalso. match goal with E : CR :: LF :: _ = CR :: _ |- _ =>
      apply cons_eq in E; destruct E as (_ & <-) end.
    match goal with F : ~ starts_with [LF] _ |- _ => apply F; eexists; reflexivity end.
  - exfalso. match goal with F : ~ starts_with [CR] _ |- _ => apply F; eexists; reflexivity end.
  - exfalso. match goal with F : ~ starts_with [LF] _ |- _ => apply F; eexists; reflexivity end.
  - exfalso. match goal with E : CR :: _ = CR :: LF :: _ |- _ =>
      apply cons_eq in E; destruct E as (_ & ->) end.
    match goal with F : ~ starts_with [LF] _ |- _ => apply F; eexists; reflexivity end.
  - exfalso. match goal with F : ~ starts_with [CR] _ |- _ => apply F; eexists; reflexivity end.
  - exfalso. match goal with F : ~ starts_with [CR] _ |- _ => apply F; eexists; reflexivity end.
  - exfalso. match goal with F : ~ starts_with [LF] _ |- _ => apply F; eexists; reflexivity end.
  - exfalso. match goal with F : ~ starts_with [CR] _ |- _ => apply F; eexists; reflexivity end.
  - match goal with E : _ :: _ = _ :: _ |- _ => apply cons_eq in E; destruct E; subst end.
    eapply one_text_det; eassumption.
  - match goal with E : _ :: _ = _ :: _ |- _ => apply cons_eq in E; destruct E; subst end.
    eapply one_text_det; eassumption.
  - repeat match goal with
      A : stack_index_of ?l ?i ?k, B : stack_index_of ?l ?i ?k' |- _ =>
        assert (k = k') by (eapply stack_index_det; eauto); subst; clear B end.
    eapply one_text_det; eassumption.
  - exfalso. eauto 6.
  - exfalso. eauto 6.
  - repeat match goal with
      A : stack_index_of ?l ?i ?k, B : stack_index_of ?l ?i ?k' |- _ =>
        assert (k = k') by (eapply stack_index_det; eauto); subst; clear B end.
    eapply one_text_det; eassumption.
  - exfalso. eauto 6.
  - exfalso. eauto 6.
Qed.


Section Complete.
Variable addr : N.
Variable s : text.
Variable env : rule -> rule_def.
Variable property : N -> char -> bool.
Notation chk := (check addr s env property).
Notation prs := (try_parse addr s env property).
Notation runs := (run addr s env property).
Notation runs_items := (run_items addr s env property).
Notation runs_choice := (run_choice addr s env property).
Notation runs_rep := (run_rep addr s env property).

Ltac not_terminal :=
  match goal with H : terminal _ _ _ _ ?n _ |- _ => solve [inversion H] end.
Ltac use_det :=
  repeat match goal with
  | IH : (forall r' tr', run _ _ _ _ ?c ?p ?n ?a ?b ?K r' tr' -> _),
    H : run _ _ _ _ ?c ?p ?n ?a ?b ?K _ _ |- _ =>
      apply IH in H; destruct H as (H & ?); try discriminate H; try (injection H; intros; clear H); subst
  | IH : (forall r' tr', run_items _ _ _ _ ?c ?p ?n ?a ?b ?K r' tr' -> _),
    H : run_items _ _ _ _ ?c ?p ?n ?a ?b ?K _ _ |- _ =>
      apply IH in H; destruct H as (H & ?); try discriminate H; try (injection H; intros; clear H); subst
  | IH : (forall r' tr', run_choice _ _ _ _ ?c ?p ?i ?n ?a ?b ?K r' tr' -> _),
    H : run_choice _ _ _ _ ?c ?p ?i ?n ?a ?b ?K _ _ |- _ =>
      apply IH in H; destruct H as (H & ?); try discriminate H; try (injection H; intros; clear H); subst
  | IH : (forall r' tr', run_rep _ _ _ _ ?c ?p ?x ?y ?mi ?ma ?i ?a ?b ?K r' tr' -> _),
    H : run_rep _ _ _ _ ?c ?p ?x ?y ?mi ?ma ?i ?a ?b ?K _ _ |- _ =>
      apply IH in H; destruct H as (H & ?); try discriminate H; try (injection H; intros; clear H); subst
  end.

Lemma run_det_all :
  (forall chain pol n pre post K r tr, runs chain pol n pre post K r tr ->
     forall r' tr', runs chain pol n pre post K r' tr' -> r = r' /\ tr = tr') /\
  (forall chain pol n pre post K r tr, runs_items chain pol n pre post K r tr ->
     forall r' tr', runs_items chain pol n pre post K r' tr' -> r = r' /\ tr = tr') /\
  (forall chain pol i n pre post K r tr, runs_choice chain pol i n pre post K r tr ->
     forall r' tr', runs_choice chain pol i n pre post K r' tr' -> r = r' /\ tr = tr') /\
  (forall chain pol x y mi ma i pre post K r tr, runs_rep chain pol x y mi ma i pre post K r tr ->
     forall r' tr', runs_rep chain pol x y mi ma i pre post K r' tr' -> r = r' /\ tr = tr').
Proof.
  apply run_mutind; intros.
  (* terminals *)
  1-2: match goal with HT : terminal _ _ _ _ ?n _ |- _ =>
         assert (is_terminal n = true) by (destruct HT; reflexivity) end;
       match goal with HR : run _ _ _ _ _ _ _ _ _ _ _ _ |- _ => inversion HR; subst;
         try discriminate end;
       match goal with A : Forall2 span_text ?K ?Ks, B : Forall2 span_text ?K ?Ks' |- _ =>
         assert (Ks = Ks') by (eapply texts_unique; eauto); subst end;
       match goal with A : terminal _ _ _ _ _ ?x, B : terminal _ _ _ _ _ ?y |- _ =>
         pose proof (terminal_det _ _ _ _ _ _ _ A B) as E; try discriminate E;
         try (injection E; intros) end; subst; auto.
  { match goal with E : _ ++ _ = _ ++ _ |- _ => apply app_inv_head in E; subst end. auto. }
  all: match goal with
       | HR : run _ _ _ _ _ _ _ _ _ _ ?r _ |- _ = ?r /\ _ => inversion HR; subst; try not_terminal
       | HR : run_items _ _ _ _ _ _ _ _ _ _ ?r _ |- _ = ?r /\ _ => inversion HR; subst
       | HR : run_choice _ _ _ _ _ _ _ _ _ _ _ ?r _ |- _ = ?r /\ _ => inversion HR; subst
       | HR : run_rep _ _ _ _ _ _ _ _ _ _ _ _ _ _ ?r _ |- _ = ?r /\ _ => inversion HR; subst
       end; try (exfalso; lia); use_det; auto; try (exfalso; lia).
Qed.
Lemma run_det : forall chain pol n pre post K r tr r' tr',
  runs chain pol n pre post K r tr -> runs chain pol n pre post K r' tr' -> r = r' /\ tr = tr'.
Proof. intros. eapply (proj1 run_det_all); eauto. Qed.
Lemma run_items_det : forall chain pol n pre post K r tr r' tr',
  runs_items chain pol n pre post K r tr -> runs_items chain pol n pre post K r' tr' ->
  r = r' /\ tr = tr'.
Proof. intros. eapply (proj1 (proj2 run_det_all)); eauto. Qed.

(** ** Completeness *)
Definition stops_at (k0 : nat) (chain : list (rule * nat)) (pol : bool) (pre post : text)
  (K : list span) (A : Type) (f : nat -> nat -> state -> res A) : Prop :=
  forall k sv t, k0 <= k -> chain_of t = chain -> tk_positive t = pol -> s = pre ++ post ->
    valid_stack K -> f k (blen pre) (mkState (mkStack K sv) t) <> OutOfFuel.

Lemma stops_mono : forall k0 k1 chain pol pre post K A f, k0 <= k1 ->
  stops_at k0 chain pol pre post K A f -> stops_at k1 chain pol pre post K A f.
Proof. unfold stops_at. intros. apply H0; auto. lia. Qed.

(** With enough fuel, the outcome is the one of a given derivation. *)
Lemma stops_known : forall k chain pol n pre post K r tr sv t,
  runs chain pol n pre post K r tr -> chain_of t = chain -> tk_positive t = pol ->
  s = pre ++ post -> valid_stack K ->
  chk k n (blen pre) (mkState (mkStack K sv) t) <> OutOfFuel ->
  fits s (chk k n (blen pre) (mkState (mkStack K sv) t))
       (prs k n (blen pre) (mkState (mkStack K sv) t)) pre sv t tr r.
Proof.
  intros k chain pol n pre post K r tr sv t HR HC HP Hs HK HN.
  destruct (sound addr s env property k n pre post K sv t Hs HK) as [(E & _)|(r' & tr' & HR' & HF)].
  - contradiction.
  - rewrite HC, HP in HR'. destruct (run_det _ _ _ _ _ _ _ _ _ _ HR HR') as (<- & <-). exact HF.
Qed.

Definition check_list (k : nat) (items : list (bool * node)) (pos : nat) (st : state) : res nat :=
  fold_right (fun n f pos st => bind (chk k (snd n) pos st) f) (fun pos st => Ret (Some pos, st))
    items pos st.
Lemma check_list_cons : forall k b n l pos st,
  check_list k ((b, n) :: l) pos st = bind (chk k n pos st) (check_list k l).
Proof. reflexivity. Qed.

Lemma bind_ext : forall (A B : Type) (m : res A) (f g : A -> state -> res B),
  (forall a st, f a st = g a st) -> bind m f = bind m g.
Proof. intros A B [[[a|] st]| |] f g H; simpl; auto. Qed.
Lemma bind_ret : forall (A : Type) (m : res A), bind m (fun a st => Ret (Some a, st)) = m.
Proof. intros A [[[a|] st]| |]; reflexivity. Qed.

Lemma check_seq_list_rest : forall k fields pos st,
  check_seq (chk k) false fields pos st = check_list k (rest_items fields) pos st.
Proof.
  intros k. induction fields as [|[f tv] fields IH]; intros pos st; [reflexivity|].
  cbn [check_seq]. change (rest_items ((f, tv) :: fields))
    with ((false, tv) :: (true, f) :: rest_items fields).
  rewrite check_list_cons. apply bind_ext. intros p st'. rewrite check_list_cons.
  apply bind_ext. intros. apply IH.
Qed.
Lemma check_seq_list : forall k fields pos st,
  check_seq (chk k) true fields pos st = check_list k (kept_fields fields) pos st.
Proof.
  intros k [|[f tv] fields] pos st; [reflexivity|].
  cbn [check_seq bind]. change (kept_fields ((f, tv) :: fields)) with ((true, f) :: rest_items fields).
  rewrite check_list_cons. apply bind_ext. intros. apply check_seq_list_rest.
Qed.
Lemma check_unit_list : forall k n tv i pos st,
  check_unit (chk k) n tv i pos st = check_list k (kept_round n tv i) pos st.
Proof.
  intros k n tv i pos st. unfold check_unit, kept_round.
  destruct (N.eq_dec i 0) as [->|Ni].
  - change (0 <? 0)%N with false. cbn [bind]. rewrite check_list_cons.
    unfold check_list. simpl. rewrite bind_ret. reflexivity.
  - replace (0 <? i)%N with true by lia. rewrite check_list_cons. apply bind_ext. intros.
    rewrite check_list_cons. unfold check_list. simpl. rewrite bind_ret. reflexivity.
Qed.

(** The outcome of a list of items, when the loop stops. *)
Lemma list_known : forall k items chain pol pre post K r tr sv t,
  runs_items chain pol items pre post K r tr -> chain_of t = chain -> tk_positive t = pol ->
  s = pre ++ post -> valid_stack K ->
  check_list k items (blen pre) (mkState (mkStack K sv) t) <> OutOfFuel ->
  match r with
  | RFail => exists K', check_list k items (blen pre) (mkState (mkStack K sv) t)
                        = Ret (None, mkState (mkStack K' sv) (play tr t))
  | ROk pre' post' K' _ =>
      s = pre' ++ post' /\ valid_stack K' /\
      check_list k items (blen pre) (mkState (mkStack K sv) t)
      = Ret (Some (blen pre'), mkState (mkStack K' sv) (play tr t))
  end.
Proof.
  intros k items. induction items as [|[b n] items IH]; intros chain pol pre post K r tr sv t HR HC HP Hs HK HN.
  - inversion HR; subst. rewrite play_nil. auto.
  - rewrite check_list_cons in *.
    assert (HN1 : chk k n (blen pre) (mkState (mkStack K sv) t) <> OutOfFuel).
    { intros E. rewrite E in HN. apply HN. reflexivity. }
    inversion HR; subst;
      match goal with H : run _ _ _ _ _ _ _ _ _ _ _ _ |- _ =>
        pose proof (stops_known _ _ _ _ _ _ _ _ _ sv t H eq_refl eq_refl Hs HK HN1) as F end.
    + destruct F as (_ & Hs' & HK' & E & _). rewrite E in *. cbn [bind] in *.
      match goal with H : run_items _ _ _ _ _ _ _ _ _ _ _ _ |- _ =>
        pose proof (IH _ _ _ _ _ _ _ sv (play tr0 t) H (chain_play _ _) eq_refl Hs' HK' HN) as G end.
      cbn beta iota in G. rewrite play_app. exact G.
    + destruct F as (_ & Hs' & HK' & E & _). rewrite E in *. cbn [bind] in *.
      match goal with H : run_items _ _ _ _ _ _ _ _ _ _ _ _ |- _ =>
        pose proof (IH _ _ _ _ _ _ _ sv (play tr0 t) H (chain_play _ _) eq_refl Hs' HK' HN) as G end.
      cbn beta iota in G. rewrite play_app. exact G.
    + destruct F as (K' & E & _). rewrite E. exists K'. reflexivity.
Qed.

Lemma complete_all :
  (forall chain pol n pre post K r tr, runs chain pol n pre post K r tr ->
     exists k0, stops_at k0 chain pol pre post K _ (fun k => chk k n)) /\
  (forall chain pol items pre post K r tr, runs_items chain pol items pre post K r tr ->
     exists k0, stops_at k0 chain pol pre post K _ (fun k => check_list k items)) /\
  (forall chain pol (i : nat) ts pre post K r tr, runs_choice chain pol i ts pre post K r tr ->
     exists k0, stops_at k0 chain pol pre post K _ (fun k => check_choice (chk k) ts)) /\
  (forall chain pol x y mi ma i pre post K r tr, runs_rep chain pol x y mi ma i pre post K r tr ->
     exists k0, forall j, k0 <= j ->
       stops_at k0 chain pol pre post K _ (fun k => check_rep j (chk k) x y mi ma i)).
Proof.
  apply run_mutind; intros.
  1-2: exists 2; intros k sv t0 Hk HC HP Hs HK; destruct k as [|[|k]]; try lia;
    match goal with HT : terminal _ _ _ _ ?n _ |- _ =>
      assert (HN : is_terminal n = true) by (destruct HT; reflexivity) end;
    destruct (terminal_step addr s env property (S k) n pre post K Ks sv t0 HN Hs)
      as [(_ & Z & _)|(r' & _ & HT')]; auto; [discriminate Z|];
    destruct r' as [|? ? ?];
      [destruct HT' as (? & HE & _); intros E; rewrite E in HE; discriminate
      |destruct HT' as (? & _ & _ & _ & HE & _); intros E; rewrite E in HE; discriminate].
  (* positive *)
  1-2: destruct H as (k0 & H); exists (S k0); intros k sv t0 Hk HC HP Hs HK; destruct k as [|k]; try lia;
    cbn [check]; unfold during; cbn beta zeta;
    change (on_stack stack_snapshot (on_tracker (set_positive true) (mkState (mkStack K sv) t0)))
        with (mkState (mkStack K (K :: sv)) (set_positive true t0));
    assert (HN : chk k t (blen pre) (mkState (mkStack K (K :: sv)) (set_positive true t0)) <> OutOfFuel)
      by (apply H; auto; lia);
    destruct (chk k t (blen pre) (mkState (mkStack K (K :: sv)) (set_positive true t0)))
      as [[[?|] ?]| |]; simpl; congruence.
  (* negative *)
  1-2: destruct H as (k0 & H); exists (S k0); intros k sv t0 Hk HC HP Hs HK; destruct k as [|k]; try lia;
    cbn [check]; unfold during; cbn beta zeta;
    change (on_stack stack_snapshot (on_tracker (set_positive false) (mkState (mkStack K sv) t0)))
        with (mkState (mkStack K (K :: sv)) (set_positive false t0));
    assert (HN : chk k t (blen pre) (mkState (mkStack K (K :: sv)) (set_positive false t0)) <> OutOfFuel)
      by (apply H; auto; lia);
    destruct (chk k t (blen pre) (mkState (mkStack K (K :: sv)) (set_positive false t0)))
      as [[[?|] ?]| |]; simpl; congruence.
  (* push *)
  1-2: destruct H as (k0 & H); exists (S k0); intros k sv t0 Hk HC HP Hs HK; destruct k as [|k]; try lia;
    cbn [check];
    assert (HN : chk k t (blen pre) (mkState (mkStack K sv) t0) <> OutOfFuel) by (apply H; auto; lia);
    destruct (chk k t (blen pre) (mkState (mkStack K sv) t0)) as [[[?|] ?]| |]; simpl; try congruence;
    unfold span_between, position_span; simpl;
    destruct (str_ptr_eq addr s addr s); [destruct (get_range s (blen pre) n)|]; simpl; congruence.
  (* optional *)
  1-2: destruct H as (k0 & H); exists (S k0); intros k sv t0 Hk HC HP Hs HK; destruct k as [|k]; try lia;
    cbn [check];
    change (on_stack stack_snapshot (mkState (mkStack K sv) t0)) with (mkState (mkStack K (K :: sv)) t0);
    assert (HN : chk k t (blen pre) (mkState (mkStack K (K :: sv)) t0) <> OutOfFuel)
      by (apply H; auto; lia);
    destruct (chk k t (blen pre) (mkState (mkStack K (K :: sv)) t0)) as [[[?|] ?]| |]; simpl; congruence.
  (* repetition *)
  1-2: destruct H as (k0 & H); exists (S k0); intros k sv t0 Hk HC HP Hs HK; destruct k as [|k]; try lia;
    cbn [check]; apply (H k); auto; lia.
  (* sequence *)
  1-2: destruct H as (k0 & H); exists (S k0); intros k sv t0 Hk HC HP Hs HK; destruct k as [|k]; try lia;
    cbn [check]; rewrite check_seq_list; apply H; auto; lia.
  (* choice *)
  1: destruct H as (k0 & H); exists (S k0); intros k sv t0 Hk HC HP Hs HK; destruct k as [|k]; try lia;
    cbn [check]; apply H; auto; lia.
  (* rule *)
  1-2: destruct H as (k0 & H); exists (S k0); intros k sv t0 Hk HC HP Hs HK; destruct k as [|k]; try lia;
    cbn [check]; unfold record_option_during_with, on_tracker; cbn [st_stack st_tracker];
    assert (HN : chk k (rd_body (env r) args) (blen pre)
              (mkState (mkStack K sv) (enter_rule r (blen pre) t0)) <> OutOfFuel)
      by (apply H; auto; [lia|subst chain; unfold chain_of, enter_rule; simpl;
            destruct (tk_stack t0) as [|[[? ?] ?] ?]; reflexivity]);
    destruct (chk k (rd_body (env r) args) (blen pre)
              (mkState (mkStack K sv) (enter_rule r (blen pre) t0))) as [[? st']| |]; simpl; try congruence;
    unfold leave_rule; destruct (tk_stack (st_tracker st')) as [|[[? ?] ?] ?]; simpl; congruence.
  (* items *)
  - exists 0. intros k sv t _ _ _ _ _. unfold check_list. simpl. discriminate.
  - destruct H as (k1 & H). destruct H0 as (k2 & H0). exists (Nat.max k1 k2).
    intros k sv t0 Hk HC HP Hs HK. rewrite check_list_cons.
    assert (HN : chk k t (blen pre) (mkState (mkStack K sv) t0) <> OutOfFuel) by (apply H; auto; lia).
    pose proof (stops_known _ _ _ _ _ _ _ _ _ sv t0 r HC HP Hs HK HN) as F.
    destruct F as (_ & Hs' & HK' & E & _). rewrite E. cbn [bind].
    apply H0; auto; [lia|]. rewrite chain_play. exact HC.
  - destruct H as (k1 & H). destruct H0 as (k2 & H0). exists (Nat.max k1 k2).
    intros k sv t0 Hk HC HP Hs HK. rewrite check_list_cons.
    assert (HN : chk k t (blen pre) (mkState (mkStack K sv) t0) <> OutOfFuel) by (apply H; auto; lia).
    pose proof (stops_known _ _ _ _ _ _ _ _ _ sv t0 r HC HP Hs HK HN) as F.
    destruct F as (_ & Hs' & HK' & E & _). rewrite E. cbn [bind].
    apply H0; auto; [lia|]. rewrite chain_play. exact HC.
  - destruct H as (k1 & H). exists k1.
    intros k sv t0 Hk HC HP Hs HK. rewrite check_list_cons.
    assert (HN : chk k t (blen pre) (mkState (mkStack K sv) t0) <> OutOfFuel) by (apply H; auto; lia).
    pose proof (stops_known _ _ _ _ _ _ _ _ _ sv t0 r HC HP Hs HK HN) as F.
    destruct F as (K' & E & _). rewrite E. discriminate.
  (* alternatives *)
  - exists 0. intros k sv t _ _ _ _ _. simpl. discriminate.
  - destruct H as (k1 & H). exists k1. intros k sv t0 Hk HC HP Hs HK. cbn [check_choice].
    change (on_stack stack_snapshot (mkState (mkStack K sv) t0)) with (mkState (mkStack K (K :: sv)) t0).
    assert (HN : chk k t (blen pre) (mkState (mkStack K (K :: sv)) t0) <> OutOfFuel)
      by (apply H; auto; lia).
    pose proof (stops_known _ _ _ _ _ _ _ _ _ (K :: sv) t0 r HC HP Hs HK HN) as F.
    destruct F as (_ & _ & _ & E & _). rewrite E. discriminate.
  - destruct H as (k1 & H). destruct H0 as (k2 & H0). exists (Nat.max k1 k2).
    intros k sv t0 Hk HC HP Hs HK. cbn [check_choice].
    change (on_stack stack_snapshot (mkState (mkStack K sv) t0)) with (mkState (mkStack K (K :: sv)) t0).
    assert (HN : chk k t (blen pre) (mkState (mkStack K (K :: sv)) t0) <> OutOfFuel)
      by (apply H; auto; lia).
    pose proof (stops_known _ _ _ _ _ _ _ _ _ (K :: sv) t0 r0 HC HP Hs HK HN) as F.
    destruct F as (K' & E & _). rewrite E.
    change (on_stack stack_restore (mkState (mkStack K' (K :: sv)) (play tr t0)))
        with (mkState (mkStack K sv) (play tr t0)).
    apply H0; auto; [lia|]. rewrite chain_play. exact HC.
  (* rounds *)
  - exists 0. intros j _ k sv t0 _ _ _ _ _. destruct j; cbn [check_rep];
      replace (i <? max)%N with false by lia; discriminate.
  - destruct H as (k1 & H). destruct H0 as (k2 & H0). exists (S (Nat.max k1 k2)).
    intros j Hj k sv t0 Hk HC HP Hs HK. destruct j as [|j]; [lia|]. cbn [check_rep].
    replace (i <? max)%N with true by lia. unfold restore_on_none.
    change (on_stack stack_snapshot (mkState (mkStack K sv) t0)) with (mkState (mkStack K (K :: sv)) t0).
    rewrite check_unit_list.
    assert (HN : check_list k (kept_round t trivia i) (blen pre) (mkState (mkStack K (K :: sv)) t0) <> OutOfFuel)
      by (apply H; auto; lia).
    pose proof (list_known _ _ _ _ _ _ _ _ _ (K :: sv) t0 r HC HP Hs HK HN) as (Hs' & HK' & ->).
    change (on_stack stack_clear_snapshot (mkState (mkStack K' (K :: sv)) (play tr t0)))
          with (mkState (mkStack K' sv) (play tr t0)).
    apply (H0 j); auto; [lia|lia|]. rewrite chain_play. exact HC.
  - destruct H as (k1 & H). destruct H0 as (k2 & H0). exists (S (Nat.max k1 k2)).
    intros j Hj k sv t0 Hk HC HP Hs HK. destruct j as [|j]; [lia|]. cbn [check_rep].
    replace (i <? max)%N with true by lia. unfold restore_on_none.
    change (on_stack stack_snapshot (mkState (mkStack K sv) t0)) with (mkState (mkStack K (K :: sv)) t0).
    rewrite check_unit_list.
    assert (HN : check_list k (kept_round t trivia i) (blen pre) (mkState (mkStack K (K :: sv)) t0) <> OutOfFuel)
      by (apply H; auto; lia).
    pose proof (list_known _ _ _ _ _ _ _ _ _ (K :: sv) t0 r HC HP Hs HK HN) as (Hs' & HK' & ->).
    change (on_stack stack_clear_snapshot (mkState (mkStack K' (K :: sv)) (play tr t0)))
          with (mkState (mkStack K' sv) (play tr t0)).
    apply (H0 j); auto; [lia|lia|]. rewrite chain_play. exact HC.
  - destruct H as (k1 & H). exists (S k1).
    intros j Hj k sv t0 Hk HC HP Hs HK. destruct j as [|j]; [lia|]. cbn [check_rep].
    replace (i <? max)%N with true by lia. unfold restore_on_none.
    change (on_stack stack_snapshot (mkState (mkStack K sv) t0)) with (mkState (mkStack K (K :: sv)) t0).
    rewrite check_unit_list.
    assert (HN : check_list k (kept_round t trivia i) (blen pre) (mkState (mkStack K (K :: sv)) t0) <> OutOfFuel)
      by (apply H; auto; lia).
    pose proof (list_known _ _ _ _ _ _ _ _ _ (K :: sv) t0 r HC HP Hs HK HN) as (K' & ->).
    destruct (i <? min)%N; discriminate.
  - destruct H as (k1 & H). exists (S k1).
    intros j Hj k sv t0 Hk HC HP Hs HK. destruct j as [|j]; [lia|]. cbn [check_rep].
    replace (i <? max)%N with true by lia. unfold restore_on_none.
    change (on_stack stack_snapshot (mkState (mkStack K sv) t0)) with (mkState (mkStack K (K :: sv)) t0).
    rewrite check_unit_list.
    assert (HN : check_list k (kept_round t trivia i) (blen pre) (mkState (mkStack K (K :: sv)) t0) <> OutOfFuel)
      by (apply H; auto; lia).
    pose proof (list_known _ _ _ _ _ _ _ _ _ (K :: sv) t0 r HC HP Hs HK HN) as (K' & ->).
    destruct (i <? min)%N; discriminate.
Qed.

(** Every derivation is found by both entry points, given enough fuel. *)
Theorem complete : forall chain pol n pre post K r tr,
  runs chain pol n pre post K r tr ->
  exists k0, forall k sv t, k0 <= k -> chain_of t = chain -> tk_positive t = pol ->
    s = pre ++ post -> valid_stack K ->
    fits s (chk k n (blen pre) (mkState (mkStack K sv) t))
       (prs k n (blen pre) (mkState (mkStack K sv) t)) pre sv t tr r.
Proof.
  intros chain pol n pre post K r tr H. destruct (proj1 complete_all _ _ _ _ _ _ _ _ H) as (k0 & H0).
  exists k0. intros. eapply stops_known; eauto; apply (H0 k); auto.
Qed.
End Complete.
