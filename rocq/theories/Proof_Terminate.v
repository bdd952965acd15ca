(** Facts about termination. *)
From Coq Require Import List NArith ZArith Arith Bool Lia Relations Wf_nat ZifyBool ZifyNat ZifyN.
From Verif Require Import Model_Text Model_Position Model_Span Model_Stack Model_Tracker Model_Node
  Spec_Text Spec_Peg Spec_Run Spec_Tracker Spec_Yield Spec_Terminate Proof_Text Proof_Position Proof_Span Proof_Tracker
  Proof_Terminal Proof_Run Proof_Complete Proof_Peg Proof_Fuel Proof_Yield Proof_Entry.
Import ListNotations.
Open Scope list_scope.

(** Any text is the text of a span. *)
Lemma texts_spans : forall Ks, exists K, Forall2 span_text K Ks.
Proof.
  induction Ks as [|t Ks (K & IH)]; [exists []; constructor|].
  exists (mkSpan 0 t 0 (blen t) :: K). constructor; [|exact IH].
  exists [], []. cbn. rewrite app_nil_r. auto.
Qed.

(** Without cycles, and with finitely many starting points, every descent ends. *)
Section Acyclic.
Variable A : Type.
Variable R : A -> A -> Prop.
Variable L : list A.
Hypothesis Dom : forall a b, In a L -> R a b -> In b L.
Hypothesis Acyclic : forall a, In a L -> ~ clos_trans _ R a a.
Lemma descent : forall n V a, length L <= n + length V -> NoDup V -> incl V L -> In a L -> (forall x, In x V -> clos_trans _ R x a) ->
  Acc (fun y x => R x y) a.
Proof.
  induction n as [|n IH]; intros V a Ln Nd Inc Ia Anc; constructor; intros y Ry;
    assert (Na : ~ In a V) by (intro I; exact (Acyclic a Ia (Anc a I)));
    assert (Nd' : NoDup (a :: V)) by (constructor; assumption);
    assert (Inc' : incl (a :: V) L) by (intros x [<-|I]; [exact Ia|apply Inc, I]).
  - assert (Q := NoDup_incl_length Nd' Inc'). cbn [length] in Q. lia.
  - apply (IH (a :: V)); [cbn [length]; lia|exact Nd'|exact Inc'|exact (Dom _ _ Ia Ry)|].
    intros x [<-|I]; [apply t_step, Ry|]. eapply t_trans; [apply Anc, I|apply t_step, Ry].
Qed.
Lemma acyclic_acc : forall a, In a L -> Acc (fun y x => R x y) a.
Proof. intros a Ia. apply (descent (length L) [] a); [lia|constructor|intros x []|exact Ia|intros x []]. Qed.
End Acyclic.

(** A match goes forward. *)
Definition forward (pre post : text) (r : result) : Prop :=
  match r with Fail => True | Ok pre' post' _ => exists m, pre' = pre ++ m /\ post = m ++ post' end.
Lemma forward_trans : forall pre post pre' post' K r, forward pre post (Ok pre' post' K) -> forward pre' post' r -> forward pre post r.
Proof.
  intros pre post pre' post' K [|pre'' post'' K''] (m & -> & ->) H; [exact I|]. destruct H as (m' & -> & ->).
  exists (m ++ m'). rewrite <- !app_assoc. auto.
Qed.
Lemma forward_refl : forall pre post K, forward pre post (Ok pre post K).
Proof. intros. exists []. rewrite app_nil_r. auto. Qed.
Lemma forward_length : forall pre post pre' post' K, forward pre post (Ok pre' post' K) ->
  length post' < length post \/ pre' = pre /\ post' = post.
Proof.
  intros pre post pre' post' K (m & -> & ->). destruct m as [|c m]; [right; rewrite app_nil_r; auto|left; cbn; rewrite app_length; lia].
Qed.

Lemma forward_antisym : forall pre post pre' post' K K', forward pre post (Ok pre' post' K) -> forward pre' post' (Ok pre post K') ->
  pre' = pre /\ post' = post.
Proof.
  intros pre post pre' post' K K' H H'. destruct (forward_length _ _ _ _ _ H) as [L|E]; [|exact E].
  destruct (forward_length _ _ _ _ _ H') as [L'|(-> & ->)]; [lia|auto].
Qed.

Section Terminate.
Variable env : rule -> rule_def.
Variable property : N -> char -> bool.
Notation peg := (peg env property).
Notation peg_items := (peg_items env property).
Notation peg_choice := (peg_choice env property).
Notation peg_rep := (peg_rep env property).
Notation passes := (passes env property).
Notation part := (part env).
Notation leads := (leads env property).

Lemma terminal_forward : forall n pre post K r, terminal property pre post K n r -> forward pre post r.
Proof.
  intros n pre post K [|pre' post' K'] H; [exact I|]. destruct (texts_spans K) as (Ks & F).
  destruct (terminal_shape _ _ _ _ _ _ _ _ _ F H) as (m & -> & -> & _). exists m. auto.
Qed.
Lemma peg_forward_all :
  (forall n pre post K r, peg n pre post K r -> forward pre post r) /\
  (forall l pre post K r, peg_items l pre post K r -> forward pre post r) /\
  (forall l pre post K r, peg_choice l pre post K r -> forward pre post r) /\
  (forall t trivia min max i pre post K r, peg_rep t trivia min max i pre post K r -> forward pre post r).
Proof.
  apply peg_mutind; intros; try exact I; try apply forward_refl; try assumption;
    try (eapply terminal_forward; eassumption); try (eapply forward_trans; eassumption).
Qed.
Lemma peg_forward : forall n pre post K r, peg n pre post K r -> forward pre post r.
Proof. intros. eapply (proj1 peg_forward_all); eassumption. Qed.
Lemma items_forward : forall n pre post K r, peg_items n pre post K r -> forward pre post r.
Proof. intros. eapply (proj1 (proj2 peg_forward_all)); eassumption. Qed.

(** Sequences. *)
Lemma items_app : forall a b pre post K pre' post' K' r,
  peg_items a pre post K (Ok pre' post' K') -> peg_items b pre' post' K' r -> peg_items (a ++ b) pre post K r.
Proof.
  induction a as [|x a IH]; intros b pre post K pre' post' K' r H H'; inversion H; subst; [exact H'|].
  cbn [app]. eapply I_cons; [eassumption|]. eapply IH; eassumption.
Qed.
Lemma items_snoc : forall a x pre post K pre' post' K' r, peg_items a pre post K (Ok pre' post' K') -> peg x pre' post' K' r ->
  peg_items (a ++ [x]) pre post K r.
Proof.
  intros a x pre post K pre' post' K' r H H'. eapply items_app; [exact H|]. destruct r; [apply I_fail, H'|].
  eapply I_cons; [exact H'|apply I_nil].
Qed.
Lemma items_fail : forall a b pre post K, peg_items a pre post K Fail -> peg_items (a ++ b) pre post K Fail.
Proof.
  induction a as [|x a IH]; intros b pre post K H; inversion H; subst; cbn [app];
    [eapply I_cons; [eassumption|apply IH; assumption]|apply I_fail; assumption].
Qed.
Lemma items_pass : forall a pre post K K', peg_items a pre post K (Ok pre post K') -> Forall passes a.
Proof.
  induction a as [|x a IH]; intros pre post K K' H; [constructor|]. inversion H; subst.
  match goal with A : peg x _ _ _ _, B : peg_items a _ _ _ _ |- _ =>
    pose proof (peg_forward _ _ _ _ _ A) as (m & -> & ->); pose proof (items_forward _ _ _ _ _ B) as (m' & E & E');
    assert (m = []) as -> by (apply (f_equal (@length char)) in E'; rewrite !app_length in E'; destruct m; [reflexivity|cbn in E'; lia]);
    rewrite app_nil_r in *; cbn [app] in *; constructor; [exists pre, post', K; eexists; exact A|eapply IH, B] end.
Qed.
(** All of a list can be tried if each can be tried after those before it. *)
Lemma items_total : forall todo done pre post K pre0 post0 K0,
  peg_items done pre0 post0 K0 (Ok pre post K) ->
  (forall a x b pre' post' K', todo = a ++ x :: b -> peg_items (done ++ a) pre0 post0 K0 (Ok pre' post' K') ->
     exists r, peg x pre' post' K' r) ->
  exists r, peg_items todo pre post K r.
Proof.
  induction todo as [|x todo IH]; intros done pre post K pre0 post0 K0 Hd H; [eexists; apply I_nil|].
  destruct (H [] x todo pre post K eq_refl) as ([|pre' post' K'] & R); [rewrite app_nil_r; exact Hd|eexists; apply I_fail, R|].
  destruct (IH (done ++ [x]) pre' post' K' pre0 post0 K0) as (r & R').
  - eapply items_snoc; [exact Hd|exact R].
  - intros a y b pre2 post2 K2 E Hi. apply (H (x :: a) y b pre2 post2 K2); [cbn; congruence|].
    rewrite <- app_assoc in Hi. exact Hi.
  - exists r. eapply I_cons; eassumption.
Qed.

Lemma terminal_total : forall n pre post K, is_terminal n = true -> exists r, terminal property pre post K n r.
Proof.
  intros n pre post Ks T. destruct (texts_spans Ks) as (K & F).
  destruct (terminal_step 0 (pre ++ post) env property 1 n pre post K Ks [] (tracker_new 0) T eq_refl F) as [(_ & Z & _)|(r & H & _)];
    [discriminate Z|]. exists r. exact H.
Qed.

(** Rounds. *)
Lemma rep_total : forall t trivia min max (Q : N -> text -> text -> Prop) pre0 post0,
  (forall i pre post K, forward pre0 post0 (Ok pre post K) -> Q i pre post -> exists r, peg_items (round_items t trivia i) pre post K r /\
     match r with Fail => True | Ok pre' post' _ => Q (i + 1)%N pre' post' end) ->
  forall k i pre post K, (max <= i + N.of_nat k)%N -> forward pre0 post0 (Ok pre post K) -> Q i pre post ->
  exists r, peg_rep t trivia min max i pre post K r.
Proof.
  intros t trivia min max Q pre0 post0 H. induction k as [|k IH]; intros i pre post K Le Fw HQ.
  { eexists. apply R_max. lia. }
  destruct (N.le_gt_cases max i) as [L|L]; [eexists; apply R_max, L|].
  destruct (H i pre post K Fw HQ) as ([|pre' post' K'] & R & HQ').
  - destruct (N.le_gt_cases min i) as [M|M]; [eexists; apply R_stop; eassumption|eexists; apply R_fail; eassumption].
  - destruct (IH (i + 1)%N pre' post' K') as (r & R'); [lia|eapply forward_trans; [exact Fw|eapply items_forward, R]|exact HQ'|].
    exists r. eapply R_round; eassumption.
Qed.

Definition settled (n : node) : Prop := forall pre post K, exists r, peg n pre post K r.

(** Every expression has a result at every place. *)
Lemma total : forall len n, Acc (fun b a => leads a b) n -> (forall m, reaches env n m -> Acc (fun b a => leads a b) m) ->
  (forall m, reaches env n m -> forall pre post K, length post < len -> exists r, peg m pre post K r) ->
  forall pre post K, length post <= len -> exists r, peg n pre post K r.
Proof.
  intros len n Ac. induction Ac as [n _ IH]. intros Wf Sh pre post K Le.
  assert (Same : forall m K', leads n m -> part n m -> exists r, peg m pre post K' r).
  { intros m K' Ld Pt. apply (IH m Ld); [| |exact Le].
    - intros m' R. apply Wf. eapply rt_trans; [apply rt_step, Pt|exact R].
    - intros m' R. apply Sh. eapply rt_trans; [apply rt_step, Pt|exact R]. }
  assert (Any : forall m pre' post' K', part n m -> forward pre post (Ok pre' post' K') ->
    (pre' = pre -> post' = post -> leads n m) -> exists r, peg m pre' post' K' r).
  { intros m pre' post' K' Pt Fw Ld. destruct (forward_length _ _ _ _ _ Fw) as [L|(E & E')].
    - apply Sh; [apply rt_step, Pt|lia].
    - rewrite E, E'. apply Same; [exact (Ld E E')|exact Pt]. }
  destruct (is_terminal n) eqn:T.
  { destruct (terminal_total n pre post K T) as (r & H). exists r. apply P_terminal, H. }
  destruct n; try discriminate T.
  - destruct (Same n K (leads_positive _ _ _) (part_positive _ _)) as ([|? ? ?] & H); eexists; [apply P_positive_fail, H|eapply P_positive_ok, H].
  - destruct (Same n K (leads_negative _ _ _) (part_negative _ _)) as ([|? ? ?] & H); eexists; [apply P_negative_ok, H|eapply P_negative_fail, H].
  - destruct (Same n K (leads_push _ _ _) (part_push _ _)) as ([|? ? ?] & H); [eexists; apply P_push_fail, H|].
    pose proof (peg_forward _ _ _ _ _ H) as (m & -> & ->). eexists. apply P_push_ok, H.
  - destruct (rep_total n1 n2 min max (fun i pre' post' => i = 0%N \/ (pre' = pre -> post' = post -> passes n1)) pre post)
      with (k := N.to_nat max) (i := 0%N) (pre := pre) (post := post) (K := K) as (r & H);
      [|lia|apply forward_refl|left; reflexivity|exists r; apply P_rep, H].
    intros i pre1 post1 K1 Fw Q.
    assert (R : exists r, peg_items (round_items n1 n2 i) pre1 post1 K1 r).
    { assert (Body : forall pre' post' K', forward pre post (Ok pre' post' K') -> exists r, peg n1 pre' post' K' r)
        by (intros pre' post' K' Fw'; apply Any; [apply part_rep|exact Fw'|intros _ _; apply leads_rep]).
      unfold round_items. destruct (N.eq_dec i 0) as [->|Ni].
      - destruct (Body pre1 post1 K1 Fw) as ([|? ? ?] & H); eexists; [apply I_fail, H|eapply I_cons; [exact H|apply I_nil]].
      - destruct Q as [->|Q]; [contradiction|].
        destruct (Any n2 pre1 post1 K1) as ([|pre2 post2 K2] & H); [apply part_trivia|exact Fw|intros E E'; apply leads_trivia, (Q E E')|eexists; apply I_fail, H|].
        destruct (Body pre2 post2 K2) as ([|? ? ?] & H'); [eapply forward_trans; [exact Fw|eapply peg_forward, H]| |];
          eexists; (eapply I_cons; [exact H|]); [apply I_fail, H'|eapply I_cons; [exact H'|apply I_nil]]. }
    destruct R as (r & R). exists r. split; [exact R|]. destruct r as [|pre2 post2 K2]; [exact I|]. right. intros -> ->.
    pose proof (items_forward _ _ _ _ _ R) as Fw'. destruct (forward_antisym _ _ _ _ _ _ Fw Fw') as (-> & ->).
    pose proof (items_pass _ _ _ _ _ R) as Ps. unfold round_items in Ps. rewrite Forall_forall in Ps. apply Ps.
    destruct (N.eq_dec i 0); [left|right; left]; reflexivity.
  - destruct (Same n K (leads_opt _ _ _) (part_opt _ _)) as ([|? ? ?] & H); eexists; [apply P_opt_none, H|eapply P_opt_some, H].
  - destruct (items_total (sequence_items fields) [] pre post K pre post K (I_nil _ _ _ _ _)) as (r & H); [|exists r; apply P_seq, H].
    intros a x b pre' post' K' E R. apply Any.
    + apply part_seq. rewrite E. apply in_elt.
    + eapply items_forward, R.
    + intros -> ->. eapply leads_seq; [exact E|]. eapply items_pass, R.
  - enough (H : exists r, peg_choice variants pre post K r) by (destruct H as (r & H); exists r; apply P_choice, H).
    assert (In' : forall x, In x variants -> exists r, peg x pre post K r).
    { intros x I. apply Same; [apply leads_choice, I|apply part_choice, I]. }
    clear -In'. induction variants as [|x l IH]; [eexists; apply C_nil|].
    destruct (In' x (or_introl eq_refl)) as ([|? ? ?] & H); [|eexists; apply C_ok, H].
    destruct IH as (r & H'); [intros y I; apply In'; right; exact I|]. exists r. apply C_next; assumption.
  - destruct (Same _ K (leads_rule _ _ r args) (part_rule _ r args)) as (res & H). exists res. apply P_rule, H.
Qed.
Lemma all_settled : forall n, no_left_recursion env property n -> settled n.
Proof.
  intros n Wf. assert (H : forall len m, reaches env n m -> forall pre post K, length post < len -> exists r, peg m pre post K r).
  { induction len as [|len IH]; intros m R pre post K L; [lia|].
    apply (total len m); [exact (Wf m R)|intros m' R'; apply Wf; eapply rt_trans; eassumption| |lia].
    intros m' R'. apply IH. eapply rt_trans; eassumption. }
  intros pre post K. apply (H (S (length post)) n (rt_refl _ _ _)). lia.
Qed.

(** A cycle without a rule on it would have no smallest expression. *)
Fixpoint size (n : node) : nat :=
  match n with
  | Positive t | Negative t | Push t | Opt t => S (size t)
  | RepMinMax t trivia _ _ => S (size t + size trivia)
  | Seq fields => S (list_sum (map (fun f => size (fst f) + size (snd f)) fields))
  | Choice ts => S (list_sum (map size ts))
  | _ => 0
  end.
Lemma sum_in : forall l x, In x l -> x <= list_sum l.
Proof. induction l as [|y l IH]; intros x []; cbn; [lia|]. specialize (IH x H). unfold list_sum in IH. lia. Qed.
Lemma leads_part : forall a b, leads a b -> part a b.
Proof. intros a b []; constructor; try assumption. rewrite H. apply in_elt. Qed.
Lemma leads_smaller : forall a b, leads a b -> size b < size a \/ exists r args, a = Rule r args.
Proof.
  intros a b H. apply leads_part in H. destruct H; try (left; cbn; lia); [| |right; eauto]; left; cbn; apply Nat.lt_succ_r.
  - destruct fields as [|[f tv] fields]; [destruct H|]. destruct H as [<-|H]; [cbn; lia|].
    apply in_flat_map in H. destruct H as ((g & gt) & I & H). cbn. etransitivity; [|apply Nat.le_add_l].
    etransitivity; [|apply sum_in, in_map, I]. cbn in *. destruct H as [<-|[<-|[]]]; lia.
  - apply sum_in, in_map, H.
Qed.
Lemma cycle_rule : forall a b, clos_trans _ leads a b -> size b < size a \/
  exists r args, clos_refl_trans _ leads a (Rule r args) /\ clos_trans _ leads (Rule r args) b.
Proof.
  intros a b H. apply clos_trans_t1n in H. induction H as [a b H|a b c H H' IH].
  - destruct (leads_smaller a b H) as [L|(r & args & ->)]; [left; exact L|right]. exists r, args. split; [apply rt_refl|apply t_step, H].
  - apply clos_t1n_trans in H'. destruct (leads_smaller a b H) as [L|(r & args & ->)].
    + destruct IH as [L'|(r & args & R & T)]; [left; lia|right]. exists r, args. split; [eapply rt_trans; [apply rt_step, H|exact R]|exact T].
    + right. exists r, args. split; [apply rt_refl|]. eapply t_trans; [apply t_step, H|exact H'].
Qed.
Lemma reaches_closed : forall nodes a b, closed env nodes -> In a nodes -> reaches env a b -> In b nodes.
Proof. intros nodes a b C I R. revert I. induction R as [a b H|a|a b c _ IH1 _ IH2]; intro I; [eapply C; eassumption|exact I|auto]. Qed.
Lemma trans_rt : forall a b c, clos_trans _ leads a b -> clos_refl_trans _ leads b c -> clos_trans _ leads a c.
Proof. intros a b c H R. revert H. induction R; intro H'; [eapply t_trans; [exact H'|apply t_step; assumption]|exact H'|auto]. Qed.
Lemma no_cycle : forall nodes, closed env nodes ->
  (forall r args, In (Rule r args) nodes -> ~ reaches_itself env property (Rule r args)) ->
  forall a, In a nodes -> ~ clos_trans _ leads a a.
Proof.
  intros nodes C H a Ia T. destruct (cycle_rule a a T) as [L|(r & args & R & T')]; [lia|].
  apply (H r args).
  - eapply reaches_closed; [exact C|exact Ia|]. clear -R. induction R; [apply rt_step, leads_part; assumption|apply rt_refl|eapply rt_trans; eassumption].
  - exact (trans_rt _ _ _ T' R).
Qed.
Lemma finite_ok : forall nodes, closed env nodes ->
  (forall r args, In (Rule r args) nodes -> ~ reaches_itself env property (Rule r args)) ->
  forall n, In n nodes -> no_left_recursion env property n.
Proof.
  intros nodes C H n In_n m R. apply (acyclic_acc node leads nodes).
  - intros a b Ia Ld. eapply C; [exact Ia|apply leads_part, Ld].
  - exact (no_cycle nodes C H).
  - exact (reaches_closed nodes n m C In_n R).
Qed.

(** Divergence. *)
Lemma diverges : forall addr s (P : node -> Prop), (forall n, P n -> exists m, begins env n m /\ P m) ->
  forall k n p st, P n -> try_parse addr s env property k n p st = OutOfFuel /\ check addr s env property k n p st = OutOfFuel.
Proof.
  intros addr s P H. induction k as [|k IH]; intros n p st Pn; [split; reflexivity|].
  destruct (H n Pn) as (m & B & Pm).
  assert (E : forall p st, try_parse addr s env property k m p st = OutOfFuel) by (intros; apply IH, Pm).
  assert (E' : forall p st, check addr s env property k m p st = OutOfFuel) by (intros; apply IH, Pm).
  destruct B; cbn [try_parse check]; unfold during, record_option_during_with; cbn zeta.
  - rewrite E, E'. split; reflexivity.
  - rewrite E'. split; reflexivity.
  - rewrite E, E'. split; reflexivity.
  - rewrite E, E'. split; reflexivity.
  - cbn [parse_seq check_seq bind]. rewrite E, E'. split; reflexivity.
  - cbn [parse_choice check_choice]. rewrite E, E'. split; reflexivity.
  - destruct k as [|k]; cbn [parse_rep check_rep]; replace (0 <? max)%N with true by lia; [split; reflexivity|].
    unfold restore_on_none, parse_unit, check_unit. change (0 <? 0)%N with false. cbn [bind]. rewrite E, E'. split; reflexivity.
  - rewrite E, E'. split; reflexivity.
Qed.
End Terminate.

Section Depth.
Variable addr : N.
Variable s : text.
Variable env : rule -> rule_def.
Variable property : N -> char -> bool.
Notation chk := (check addr s env property).
Notation prs := (try_parse addr s env property).
Notation passes := (passes env property).

(** What a returned check tells. *)
Lemma check_peg : forall k n pre post K Ks sv t, s = pre ++ post -> Forall2 span_text K Ks ->
  chk k n (blen pre) (mkState (mkStack K sv) t) <> OutOfFuel ->
  (exists K' t', chk k n (blen pre) (mkState (mkStack K sv) t) = Ret (None, mkState (mkStack K' sv) t') /\ peg env property n pre post Ks Fail) \/
  (exists m post' K' Ks' t', post = m ++ post' /\ Forall2 span_text K' Ks' /\
     chk k n (blen pre) (mkState (mkStack K sv) t) = Ret (Some (blen (pre ++ m)), mkState (mkStack K' sv) t') /\
     peg env property n pre post Ks (Ok (pre ++ m) post' Ks')).
Proof.
  intros k n pre post K Ks sv t Hs F Ne. assert (V : valid_stack K) by (exists Ks; exact F).
  destruct (sound addr s env property k n pre post K sv t Hs V) as [(E & _)|(r & tr & HR & HF)]; [contradiction|].
  pose proof (run_peg addr s env property _ _ _ _ _ _ _ _ HR Hs Ks F) as HP. destruct r as [|pre' post' K' v].
  - left. destruct HF as (K' & E & _). eauto.
  - right. destruct HP as (m & Ks' & -> & -> & F' & HP). destruct HF as (_ & _ & _ & E & _). exists m, post', K', Ks', (play tr t). auto.
Qed.

Definition fine_at (k : nat) (n : node) (pre post : text) : Prop := forall K Ks sv t, s = pre ++ post -> Forall2 span_text K Ks ->
  chk k n (blen pre) (mkState (mkStack K sv) t) <> OutOfFuel.

(** A list of items returns if each item does after those before it. *)
Lemma list_fine : forall k todo done pre post K Ks sv t pre0 post0 Ks0, s = pre ++ post -> Forall2 span_text K Ks ->
  peg_items env property done pre0 post0 Ks0 (Ok pre post Ks) ->
  (forall a x b pre' post' K', map snd todo = a ++ x :: b -> peg_items env property (done ++ a) pre0 post0 Ks0 (Ok pre' post' K') ->
     fine_at k x pre' post') ->
  check_list addr s env property k todo (blen pre) (mkState (mkStack K sv) t) <> OutOfFuel /\
  ((exists K' t', check_list addr s env property k todo (blen pre) (mkState (mkStack K sv) t) = Ret (None, mkState (mkStack K' sv) t')) \/
   (exists m post' K' Ks' t', post = m ++ post' /\ Forall2 span_text K' Ks' /\
     check_list addr s env property k todo (blen pre) (mkState (mkStack K sv) t) = Ret (Some (blen (pre ++ m)), mkState (mkStack K' sv) t') /\
     peg_items env property (done ++ map snd todo) pre0 post0 Ks0 (Ok (pre ++ m) post' Ks'))).
Proof.
  intros k. induction todo as [|[b x] todo IH]; intros done pre post K Ks sv t pre0 post0 Ks0 Hs F Hd H.
  { unfold check_list. cbn [fold_right]. split; [discriminate|]. right. exists [], post, K, Ks, t. cbn [map app]. rewrite !app_nil_r. auto. }
  rewrite check_list_cons.
  assert (N1 : chk k x (blen pre) (mkState (mkStack K sv) t) <> OutOfFuel).
  { eapply (H [] x (map snd todo) pre post Ks); [reflexivity|rewrite app_nil_r; exact Hd|exact Hs|exact F]. }
  destruct (check_peg k x pre post K Ks sv t Hs F N1) as [(K' & t' & -> & HP)|(m & post' & K' & Ks' & t' & -> & F' & -> & HP)]; cbn [bind].
  - split; [discriminate|]. left. eauto.
  - rewrite app_assoc in Hs.
    destruct (IH (done ++ [x]) (pre ++ m) post' K' Ks' sv t' pre0 post0 Ks0 Hs F') as (N2 & Out).
    + eapply items_snoc; [exact Hd|exact HP].
    + intros a y c pre2 post2 K2 E Hi. apply (H (x :: a) y c pre2 post2 K2); [cbn; congruence|]. rewrite <- app_assoc in Hi. exact Hi.
    + split; [exact N2|]. destruct Out as [Out|(m2 & post2 & K2 & Ks2 & t2 & -> & F2 & E2 & HP2)]; [left; exact Out|right].
      exists (m ++ m2), post2, K2, Ks2, t2. rewrite <- !app_assoc in *. cbn [map app snd] in *. auto.
Qed.

(** Rounds: either they are few, or each but the first consumes something. *)
Lemma rep_fine : forall k t trivia min max (Q : N -> text -> text -> Prop) pre0 post0,
  (forall i pre post K, forward pre0 post0 (Ok pre post K) -> Q i pre post ->
     (forall a x b pre' post' K', round_items t trivia i = a ++ x :: b -> peg_items env property a pre post K (Ok pre' post' K') -> fine_at k x pre' post') /\
     (forall pre' post' K', peg_items env property (round_items t trivia i) pre post K (Ok pre' post' K') -> Q (i + 1)%N pre' post')) ->
  forall j i pre post K Ks sv tk, s = pre ++ post -> Forall2 span_text K Ks -> forward pre0 post0 (Ok pre post Ks) -> Q i pre post ->
  (max <= i + N.of_nat j)%N \/ ~ empty_rounds env property t trivia /\ length post + (if N.eq_dec i 0 then 2 else 1) <= j ->
  check_rep j (chk k) t trivia min max i (blen pre) (mkState (mkStack K sv) tk) <> OutOfFuel.
Proof.
  intros k t trivia min max Q pre0 post0 H. induction j as [|j IH]; intros i pre post K Ks sv tk Hs F Fw HQ B.
  { cbn [check_rep]. destruct B as [B|(_ & B)]; [replace (i <? max)%N with false by lia; discriminate|destruct (N.eq_dec i 0); lia]. }
  cbn [check_rep]. destruct (i <? max)%N; [|discriminate]. unfold restore_on_none.
  change (on_stack stack_snapshot (mkState (mkStack K sv) tk)) with (mkState (mkStack K (K :: sv)) tk).
  rewrite check_unit_list. destruct (H i pre post Ks Fw HQ) as (Hi & Hq).
  destruct (list_fine k (kept_round t trivia i) [] pre post K Ks (K :: sv) tk pre post Ks Hs F (I_nil _ _ _ _ _)) as (_ & Out).
  { intros a x b pre' post' K' E R. rewrite kept_round_items in E. eapply Hi; [exact E|exact R]. }
  destruct Out as [(K' & t' & ->)|(m & post' & K' & Ks' & t' & -> & F' & -> & R)].
  - destruct (i <? min)%N; discriminate.
  - cbn [app] in R. rewrite kept_round_items in R. change (on_stack stack_clear_snapshot (mkState (mkStack K' (K :: sv)) t')) with (mkState (mkStack K' sv) t').
    apply (IH (i + 1)%N (pre ++ m) post' K' Ks' sv t').
    + rewrite <- app_assoc. exact Hs.
    + exact F'.
    + eapply forward_trans; [exact Fw|]. exists m. auto.
    + exact (Hq _ _ _ R).
    + destruct B as [B|(Ne & B)]; [left; lia|right; split; [exact Ne|]]. rewrite app_length in B.
      destruct (N.eq_dec (i + 1) 0) as [Z|_]; [lia|]. destruct (N.eq_dec i 0) as [_|Ni]; [lia|].
      destruct m as [|c m]; [|cbn [length] in B; lia]. exfalso. apply Ne.
      rewrite app_nil_r in R. apply items_pass in R. unfold round_items in R. destruct (N.eq_dec i 0); [contradiction|].
      inversion R as [|? ? A R']. inversion R' as [|? ? A' _]. split; assumption.
Qed.

Variable nodes : list node.
Variable M : nat.
Hypothesis Closed : closed env nodes.
Hypothesis NoRec : forall r args, In (Rule r args) nodes -> ~ reaches_itself env property (Rule r args).
Hypothesis Rounds : forall t trivia min max, In (RepMinMax t trivia min max) nodes -> (max <= N.of_nat M)%N \/ ~ empty_rounds env property t trivia.
Notation L := (length nodes).

Lemma deep : forall len v V n pre post k, L <= v + length V -> NoDup V -> incl V nodes -> In n nodes ->
  (forall x, In x V -> clos_trans _ (leads env property) x n) -> length post <= len ->
  (forall m pre' post' k', In m nodes -> length post' < len -> len * (L + 1) + len + M + 1 <= k' -> fine_at k' m pre' post') ->
  len * (L + 1) + v + len + M + 3 <= k -> fine_at k n pre post.
Proof.
  intros len. induction v as [|v IHv]; intros V n pre post k Lv Nd Inc In_n Anc Le Sh Hk;
    assert (Na : ~ In n V) by (intro I; exact (no_cycle env property nodes Closed NoRec n In_n (Anc n I)));
    assert (Nd' : NoDup (n :: V)) by (constructor; assumption);
    assert (Inc' : incl (n :: V) nodes) by (intros x [<-|I]; [exact In_n|apply Inc, I]).
  { assert (Q := NoDup_incl_length Nd' Inc'). cbn [length] in Q. lia. }
  destruct k as [|k]; [lia|].
  assert (Same : forall m, leads env property n m -> fine_at k m pre post).
  { intros m Ld. apply (IHv (n :: V) m); [cbn [length]; lia|exact Nd'|exact Inc'|eapply Closed; [exact In_n|eapply leads_part, Ld]| |exact Le|exact Sh|lia].
    intros x [<-|I]; [apply t_step, Ld|]. eapply t_trans; [apply Anc, I|apply t_step, Ld]. }
  assert (Any : forall m pre' post' K', part env n m -> forward pre post (Ok pre' post' K') ->
    (pre' = pre -> post' = post -> leads env property n m) -> fine_at k m pre' post').
  { intros m pre' post' K' Pt Fw Ld. destruct (forward_length _ _ _ _ _ Fw) as [Ls|(E & E')].
    - apply Sh; [eapply Closed; eassumption|lia|lia].
    - rewrite E, E'. apply Same, Ld; assumption. }
  intros K Ks sv t Hs F.
  assert (V' : forall sv' t', mkState (mkStack K sv') t' = mkState (mkStack K sv') t') by reflexivity.
  destruct (is_terminal n) eqn:T.
  { destruct k as [|k]; [lia|].
    destruct (terminal_step addr s env property (S k) n pre post K Ks sv t T Hs F) as [(_ & Z & _)|(r & _ & HT')]; [discriminate Z|].
    destruct r as [|? ? ?];
      [destruct HT' as (? & HE & _); intros E; rewrite E in HE; discriminate
      |destruct HT' as (? & _ & _ & _ & HE & _); intros E; rewrite E in HE; discriminate]. }
  destruct n; try discriminate T; cbn [check].
  - unfold during. cbn beta zeta.
    pose proof (Same n (leads_positive _ _ _) K Ks (K :: sv) (set_positive true t) Hs F) as HN.
    change (on_stack stack_snapshot (on_tracker (set_positive true) (mkState (mkStack K sv) t))) with (mkState (mkStack K (K :: sv)) (set_positive true t)).
    destruct (chk k n (blen pre) (mkState (mkStack K (K :: sv)) (set_positive true t))) as [[[?|] ?]| |]; simpl; congruence.
  - unfold during. cbn beta zeta.
    pose proof (Same n (leads_negative _ _ _) K Ks (K :: sv) (set_positive false t) Hs F) as HN.
    change (on_stack stack_snapshot (on_tracker (set_positive false) (mkState (mkStack K sv) t))) with (mkState (mkStack K (K :: sv)) (set_positive false t)).
    destruct (chk k n (blen pre) (mkState (mkStack K (K :: sv)) (set_positive false t))) as [[[?|] ?]| |]; simpl; congruence.
  - pose proof (Same n (leads_push _ _ _) K Ks sv t Hs F) as HN.
    destruct (chk k n (blen pre) (mkState (mkStack K sv) t)) as [[[q|] ?]| |]; simpl; try congruence.
    unfold span_between, position_span; simpl. destruct (str_ptr_eq addr s addr s); [destruct (get_range s (blen pre) q)|]; simpl; congruence.
  - apply (rep_fine k n1 n2 min max (fun i pre' post' => i = 0%N \/ (pre' = pre -> post' = post -> passes n1)) pre post) with (post := post) (Ks := Ks).
    + intros i pre1 post1 K1 Fw Q. split.
      * intros a x b pre' post' K' E R.
        assert (Fw' : forward pre post (Ok pre' post' K')) by (eapply forward_trans; [exact Fw|eapply items_forward, R]).
        unfold round_items in E. destruct (N.eq_dec i 0) as [->|Ni].
        -- destruct a as [|y [|z a]]; [|discriminate E|discriminate E]. injection E as <- _.
           eapply Any; [apply part_rep|exact Fw'|intros _ _; apply leads_rep].
        -- destruct a as [|y [|z [|u a]]]; [| |discriminate E|discriminate E].
           ++ injection E as <- _. inversion R; subst. eapply Any; [apply part_trivia|exact Fw'|]. intros E1 E2. apply leads_trivia. destruct Q as [Q|Q]; [contradiction|exact (Q E1 E2)].
           ++ injection E as _ <- _. eapply Any; [apply part_rep|exact Fw'|intros _ _; apply leads_rep].
      * intros pre2 post2 K2 R. right. intros -> ->.
        pose proof (items_forward _ _ _ _ _ _ _ R) as Fw'. destruct (forward_antisym _ _ _ _ _ _ Fw Fw') as (-> & ->).
        pose proof (items_pass _ _ _ _ _ _ _ R) as Ps. unfold round_items in Ps. rewrite Forall_forall in Ps. apply Ps.
        destruct (N.eq_dec i 0); [left|right; left]; reflexivity.
    + exact Hs.
    + exact F.
    + apply forward_refl.
    + left. reflexivity.
    + destruct (Rounds _ _ _ _ In_n) as [B|B]; [left; lia|right; split; [exact B|]]. change (N.eq_dec 0 0) with (left (A := (0 = 0)%N) (B := (0 <> 0)%N) eq_refl). cbn iota. lia.
  - pose proof (Same n (leads_opt _ _ _) K Ks (K :: sv) t Hs F) as HN.
    change (on_stack stack_snapshot (mkState (mkStack K sv) t)) with (mkState (mkStack K (K :: sv)) t).
    destruct (chk k n (blen pre) (mkState (mkStack K (K :: sv)) t)) as [[[?|] ?]| |]; simpl; congruence.
  - rewrite check_seq_list.
    apply (proj1 (list_fine k (kept_fields fields) [] pre post K Ks sv t pre post Ks Hs F (I_nil _ _ _ _ _)
      ltac:(intros a x b pre' post' K' E R; rewrite kept_sequence in E;
        eapply Any; [apply part_seq; rewrite E; apply in_elt|eapply items_forward, R|intros -> ->; eapply leads_seq; [exact E|eapply items_pass, R]]))).
  - assert (In' : forall x, In x variants -> fine_at k x pre post) by (intros x I; apply Same, leads_choice, I).
    clear -Hs F In'. revert t. induction variants as [|x l IH]; intro t; cbn [check_choice]; [discriminate|].
    change (on_stack stack_snapshot (mkState (mkStack K sv) t)) with (mkState (mkStack K (K :: sv)) t).
    destruct (check_peg k x pre post K Ks (K :: sv) t Hs F (In' x (or_introl eq_refl) K Ks (K :: sv) t Hs F))
      as [(K' & t' & -> & _)|(m & post' & K' & Ks' & t' & _ & _ & -> & _)]; [|discriminate].
    change (on_stack stack_restore (mkState (mkStack K' (K :: sv)) t')) with (mkState (mkStack K sv) t').
    apply IH. intros y I. apply In'. right. exact I.
  - unfold record_option_during_with, on_tracker. cbn [st_stack st_tracker].
    pose proof (Same _ (leads_rule _ _ r args) K Ks sv (enter_rule r (blen pre) t) Hs F) as HN.
    destruct (chk k (rd_body (env r) args) (blen pre) (mkState (mkStack K sv) (enter_rule r (blen pre) t))) as [[? st']| |]; simpl; try congruence.
    unfold leave_rule. destruct (tk_stack (st_tracker st')) as [|[[? ?] ?] ?]; simpl; congruence.
Qed.
Lemma linear : forall len n pre post k, In n nodes -> length post <= len -> len * (L + 1) + L + len + M + 3 <= k -> fine_at k n pre post.
Proof.
  induction len as [|len IH]; intros n pre post k In_n Le Hk.
  - apply (deep 0 L [] n pre post k); [cbn; lia|constructor|intros x []|exact In_n|intros x []|exact Le| |exact Hk].
    intros m pre' post' k' Im Ls Hk'. lia.
  - apply (deep (S len) L [] n pre post k); [cbn; lia|constructor|intros x []|exact In_n|intros x []|exact Le| |exact Hk].
    intros m pre' post' k' Im Ls Hk'. apply IH; [exact Im|lia|lia].
Qed.
End Depth.

(** The shorter of two prefixes is a prefix of the longer one. *)
Lemma common_prefix : forall a b a' b', a ++ b = a' ++ b' -> blen a <= blen a' -> exists d, a' = a ++ d.
Proof.
  induction a as [|x a IH]; intros b a' b' E L; [exists a'; reflexivity|]. destruct a' as [|y a'].
  - cbn [blen] in L. pose proof (len_utf8_pos x). lia.
  - cbn [app] in E. apply cons_eq in E. destruct E as (<- & E). cbn [blen] in L.
    destruct (IH b a' b' E) as (d & ->); [lia|]. exists d. reflexivity.
Qed.

Section Rounds.
Variable addr : N.
Variable s : text.
Variable env : rule -> rule_def.
Variable property : N -> char -> bool.
Notation chk := (check addr s env property).
Notation prs := (try_parse addr s env property).
Notation Y := (yields addr s env property).

Lemma yields_known : forall n p K p' v K' k sv t, boundary s p -> valid_stack K -> Y n p K (Some (p', v, K')) ->
  chk k n p (mkState (mkStack K sv) t) <> OutOfFuel -> exists t', chk k n p (mkState (mkStack K sv) t) = Ret (Some p', mkState (mkStack K' sv) t').
Proof.
  intros n p K p' v K' k sv t (pre & post & Hs & ->) V H Ne.
  destruct (sound addr s env property k n pre post K sv t Hs V) as [(E & _)|(r & tr & HR & HF)]; [contradiction|].
  pose proof (yields_det _ _ _ _ _ _ _ _ _ H (run_yields _ _ _ _ _ _ _ _ _ _ _ _ Hs V HR)) as Q.
  destruct r as [|pre' post' K2 v2]; [discriminate Q|]. injection Q as -> -> ->. destruct HF as (_ & _ & _ & -> & _). eauto.
Qed.

(** A match of the empty text. *)
Lemma yields_passes : forall n p K v K', boundary s p -> valid_stack K -> Y n p K (Some (p, v, K')) -> passes env property n.
Proof.
  intros n p K v K' (pre & post & Hs & ->) V H. pose proof V as (Ks & F).
  destruct (yields_run _ _ _ _ _ _ _ _ _ Hs V H [] true) as (r & tr & HR & E & _). destruct r as [|pre' post' K2 v2]; [discriminate E|].
  destruct (run_peg addr s env property _ _ _ _ _ _ _ _ HR Hs Ks F) as (m & Ks' & -> & -> & _ & HP). injection E as E _ _.
  rewrite blen_app in E. destruct m as [|c m]; [|cbn [blen] in E; pose proof (len_utf8_pos c); lia].
  rewrite app_nil_r in HP. exists pre, post', Ks, Ks'. exact HP.
Qed.
Lemma yields_step : forall n p K p' v K', boundary s p -> valid_stack K -> Y n p K (Some (p', v, K')) -> boundary s p' /\ valid_stack K' /\ p <= p'.
Proof.
  intros n p K p' v K' (pre & post & Hs & ->) V H.
  destruct (yields_run _ _ _ _ _ _ _ _ _ Hs V H [] true) as (r & tr & HR & E & W). destruct r as [|pre' post' K2 v2]; [discriminate E|].
  destruct W as ((m & ->) & W1 & W2). injection E as -> -> ->. split; [exists (pre ++ m), post'; auto|split; [exact W2|rewrite blen_app; lia]].
Qed.
(** Between two positions lie at most as many steps as characters. *)
Lemma rounds_few : forall t trivia, ~ empty_rounds env property t trivia -> forall i p K vs p' K',
  rounds addr s env property t trivia i p K vs p' K' -> boundary s p -> valid_stack K ->
  exists pre m post, s = pre ++ m ++ post /\ p = blen pre /\ p' = blen (pre ++ m) /\ length vs <= (if Nat.eq_dec i 0 then 1 else 0) + length m.
Proof.
  intros t trivia Ne i p K vs p' K' H. induction H as [i p K|i p K p1 v K1 vs p' K' HM HR IH]; intros B V.
  { destruct B as (pre & post & Hs & ->). exists pre, [], post. cbn. rewrite app_nil_r. repeat split; auto. lia. }
  assert (Step : boundary s p1 /\ valid_stack K1 /\ p <= p1 /\ (i <> 0 -> p < p1)).
  { destruct HM as [(-> & H)|(L & q & w & Kq & H & H')].
    - destruct (yields_step _ _ _ _ _ _ B V H) as (B1 & V1 & Le). split; [exact B1|split; [exact V1|split; [exact Le|lia]]].
    - destruct (yields_step _ _ _ _ _ _ B V H) as (Bq & Vq & Lq). destruct (yields_step _ _ _ _ _ _ Bq Vq H') as (B1 & V1 & L1).
      split; [exact B1|split; [exact V1|split; [lia|]]]. intros _. destruct (Nat.eq_dec p p1) as [E|]; [|lia]. exfalso. apply Ne.
      assert (q = p) as -> by lia. subst p1. split; [exact (yields_passes _ _ _ _ _ B V H)|exact (yields_passes _ _ _ _ _ Bq Vq H')]. }
  destruct Step as (B1 & V1 & Le & Lt). destruct (IH B1 V1) as (pre1 & m & post & Hs & -> & -> & Ln).
  destruct B as (pre & post0 & Hs' & ->). rewrite Hs' in Hs. 
  destruct (common_prefix pre post0 pre1 (m ++ post) Hs Le) as (d & ->).
  exists pre, (d ++ m), post. split; [rewrite Hs', Hs, <- !app_assoc; reflexivity|]. split; [reflexivity|]. split; [rewrite app_assoc; reflexivity|].
  rewrite app_length. cbn [length]. destruct (Nat.eq_dec (S i) 0) as [Z|_]; [discriminate Z|]. destruct (Nat.eq_dec i 0) as [_|Ni]; [lia|].
  specialize (Lt Ni). destruct d as [|c d]; [rewrite app_nil_r in Lt; lia|cbn [length]; lia].
Qed.

Lemma rep_rounds : forall t trivia min max p K p' vs K', ~ empty_rounds env property t trivia -> boundary s p -> valid_stack K ->
  Y (RepMinMax t trivia min max) p K (Some (p', VRep vs, K')) ->
  exists pre m post, s = pre ++ m ++ post /\ p = blen pre /\ p' = blen (pre ++ m) /\ length vs <= 1 + length m.
Proof.
  intros t trivia min max p K p' vs K' Ne B V H.
  apply (proj1 (repetition_ok addr s env property t trivia min max p K p' (VRep vs) K' B V)) in H.
  destruct H as (vs' & E & R & _). injection E as <-. exact (rounds_few t trivia Ne 0 p K vs p' K' R B V).
Qed.

(** Rounds that match the empty text. *)
Lemma rep_empty : forall t trivia min max p K v w, boundary s p -> valid_stack K -> Y t p K (Some (p, v, K)) -> Y trivia p K (Some (p, w, K)) ->
  Y (RepMinMax t trivia min max) p K (Some (p, VRep (repeat v (N.to_nat max)), K)).
Proof.
  intros t trivia min max p K v w B V Ht Hw.
  apply (proj2 (repetition_ok addr s env property t trivia min max p K p (VRep (repeat v (N.to_nat max))) K B V)).
  exists (repeat v (N.to_nat max)). split; [reflexivity|]. rewrite repeat_length, N2Nat.id. split; [|split; [apply N.le_refl|left; reflexivity]].
  generalize 0. generalize (N.to_nat max). induction n as [|n IH]; intro i; [constructor|]. cbn [repeat]. econstructor; [|apply IH].
  destruct i; [left; auto|right; split; [lia|]]. exists p, w, K. auto.
Qed.
Lemma rep_slow : forall t trivia min max p K v w, boundary s p -> valid_stack K -> Y t p K (Some (p, v, K)) -> Y trivia p K (Some (p, w, K)) ->
  forall k sv tk, (N.of_nat k <= max)%N -> chk k (RepMinMax t trivia min max) p (mkState (mkStack K sv) tk) = OutOfFuel.
Proof.
  intros t trivia min max p K v w B V Ht Hw [|k] sv tk Le; [reflexivity|]. cbn [check].
  assert (H : forall j i tk, (i + N.of_nat j < max)%N -> check_rep j (chk k) t trivia min max i p (mkState (mkStack K sv) tk) = OutOfFuel).
  2:{ apply H. lia. }
  induction j as [|j IH]; intros i tk' L; cbn [check_rep]; replace (i <? max)%N with true by lia; [reflexivity|].
  unfold restore_on_none. change (on_stack stack_snapshot (mkState (mkStack K sv) tk')) with (mkState (mkStack K (K :: sv)) tk').
  unfold check_unit. destruct (0 <? i)%N; cbn [bind].
  - destruct (chk k trivia p (mkState (mkStack K (K :: sv)) tk')) as [[o st']| |] eqn:E.
    2:{ destruct (yields_known trivia p K p w K k (K :: sv) tk' B V Hw) as (t' & E'); [congruence|congruence]. }
    2:{ reflexivity. }
    destruct (yields_known trivia p K p w K k (K :: sv) tk' B V Hw) as (t' & E'); [congruence|]. rewrite E in E'. injection E' as -> ->. cbn [bind].
    destruct (chk k t p (mkState (mkStack K (K :: sv)) t')) as [[o st']| |] eqn:E2.
    2:{ destruct (yields_known t p K p v K k (K :: sv) t' B V Ht) as (t2 & E'); [congruence|congruence]. }
    2:{ reflexivity. }
    destruct (yields_known t p K p v K k (K :: sv) t' B V Ht) as (t2 & E'); [congruence|]. rewrite E2 in E'. injection E' as -> ->.
    change (on_stack stack_clear_snapshot (mkState (mkStack K (K :: sv)) t2)) with (mkState (mkStack K sv) t2). apply IH. lia.
  - destruct (chk k t p (mkState (mkStack K (K :: sv)) tk')) as [[o st']| |] eqn:E2.
    2:{ destruct (yields_known t p K p v K k (K :: sv) tk' B V Ht) as (t2 & E'); [congruence|congruence]. }
    2:{ reflexivity. }
    destruct (yields_known t p K p v K k (K :: sv) tk' B V Ht) as (t2 & E'); [congruence|]. rewrite E2 in E'. injection E' as -> ->.
    change (on_stack stack_clear_snapshot (mkState (mkStack K (K :: sv)) t2)) with (mkState (mkStack K sv) t2). apply IH. lia.
Qed.
End Rounds.

(** The theorems. *)
Lemma terminates : forall addr s env property n p K, boundary s p -> valid_stack K -> no_left_recursion env property n ->
  exists o, yields addr s env property n p K o.
Proof.
  intros addr s env property n p K (pre & post & Hs & ->) (Ks & F) Wf.
  destruct (all_settled env property n Wf pre post Ks) as (r & HP).
  destruct (peg_yields addr s env property n pre post K Ks Hs F) as (A & B). destruct r as [|pre' post' K']; [exists None; exact (B HP)|].
  pose proof (peg_forward env property _ _ _ _ _ HP) as (m & -> & ->). destruct (A m post' K' HP) as (v & K2 & _ & H). eexists. exact H.
Qed.
Lemma entries_return : forall addr s env property k n, check addr s env property k n 0 (init_state) <> OutOfFuel ->
  returns (text_try_parse_partial addr s env property k n) /\ returns (text_try_parse addr s env property k n) /\
  returns (text_check_partial addr s env property k n) /\ returns (text_check addr s env property k n).
Proof.
  intros addr s env property k n Ne. destruct (text_check_forget addr s env property k n) as (-> & ->).
  destruct (full_outcome addr s env property k n) as [(E & E')|(r & tr & _ & H)].
  - exfalso. apply Ne. unfold text_try_parse_partial, to_result in E'. unfold init_state, stack_new in *.
    change from_start with 0 in E'. rewrite (check_forget addr s env property k n 0 [] [] _ (start_boundary s) valid_nil).
    destruct (try_parse addr s env property k n 0 _) as [[[?|] ?]| |]; try discriminate E'. reflexivity.
  - destruct r as [|pre' post' K' v].
    + destruct H as (-> & ->). repeat split; eexists; reflexivity.
    + destruct H as (_ & -> & ->). destruct post'; repeat split; eexists; reflexivity.
Qed.
Lemma entries_terminate : forall addr s env property n, no_left_recursion env property n -> exists k0, forall k, k0 <= k ->
  returns (text_try_parse_partial addr s env property k n) /\ returns (text_try_parse addr s env property k n) /\
  returns (text_check_partial addr s env property k n) /\ returns (text_check addr s env property k n).
Proof.
  intros addr s env property n Wf. destruct (terminates addr s env property n 0 [] (start_boundary s) valid_nil Wf) as (o & H).
  destruct (H [] (tracker_new 0)) as (k0 & H0). exists k0. intros k L. destruct (H0 k L) as (_ & E). apply entries_return.
  intro Z. unfold init_state, stack_new in Z. change from_start with 0 in Z. rewrite Z in E. discriminate E.
Qed.
Lemma entries_linear : forall addr s env property nodes M, closed env nodes ->
  (forall r args, In (Rule r args) nodes -> ~ reaches_itself env property (Rule r args)) ->
  (forall t trivia min max, In (RepMinMax t trivia min max) nodes -> (max <= N.of_nat M)%N \/ ~ empty_rounds env property t trivia) ->
  forall n k, In n nodes -> (length s + 1) * (length nodes + 2) + M + 1 <= k ->
  returns (text_try_parse_partial addr s env property k n) /\ returns (text_try_parse addr s env property k n) /\
  returns (text_check_partial addr s env property k n) /\ returns (text_check addr s env property k n).
Proof.
  intros addr s env property nodes M C NR Rd n k In_n Le. apply entries_return.
  apply (linear addr s env property nodes M C NR Rd (length s) n [] s k In_n (le_n _) ltac:(lia) [] [] [] _ eq_refl (Forall2_nil _)).
Qed.

(** A rank that decreases rules out left recursion. *)
Lemma ranked : forall env property nodes (rank : node -> nat), closed env nodes ->
  (forall a b, In a nodes -> leads env property a b -> rank b < rank a) ->
  forall a, In a nodes -> ~ reaches_itself env property a.
Proof.
  intros env property nodes rank C H a Ia T.
  assert (G : forall b, clos_trans _ (leads env property) a b -> In b nodes /\ rank b < rank a).
  { intros b Hb. apply clos_trans_tn1 in Hb. induction Hb as [b Hb|b c Hb _ (I & L)].
    - split; [eapply C; [exact Ia|eapply leads_part, Hb]|apply H; assumption].
    - split; [eapply C; [exact I|eapply leads_part, Hb]|]. specialize (H b c I Hb). lia. }
  destruct (G a T). lia.
Qed.

(** Expressions that consume something whenever they match. *)
Inductive consumes (env : rule -> rule_def) : node -> Prop :=
| eats_str c t : consumes env (Str (c :: t))
| eats_range lo hi : consumes env (CharRange lo hi)
| eats_char c : consumes env (Char c)
| eats_any : consumes env Any
| eats_push t : consumes env t -> consumes env (Push t)
| eats_seq fields t : In t (sequence_items fields) -> consumes env t -> consumes env (Seq fields)
| eats_choice ts : Forall (consumes env) ts -> consumes env (Choice ts)
| eats_rep t trivia min max : (0 < min)%N -> (0 < max)%N -> consumes env t -> consumes env (RepMinMax t trivia min max)
| eats_rule r args : consumes env (rd_body (env r) args) -> consumes env (Rule r args).
Lemma consumes_all : forall env property,
  (forall n pre post K r, peg env property n pre post K r -> consumes env n -> forall K', r <> Ok pre post K') /\
  (forall l pre post K r, peg_items env property l pre post K r -> (exists t, In t l /\ consumes env t) -> forall K', r <> Ok pre post K') /\
  (forall l pre post K r, peg_choice env property l pre post K r -> Forall (consumes env) l -> forall K', r <> Ok pre post K') /\
  (forall t trivia min max i pre post K r, peg_rep env property t trivia min max i pre post K r ->
     i = 0%N -> (0 < min)%N -> (0 < max)%N -> consumes env t -> forall K', r <> Ok pre post K').
Proof.
  intros env property. apply peg_mutind; intros; intro Z; try discriminate Z.
  all: try match goal with A : consumes _ (Positive _) |- _ => inversion A | A : consumes _ (Negative _) |- _ => inversion A
    | A : consumes _ (Opt _) |- _ => inversion A end.
  - subst r. assert (L : forall (x : char) a, a ++ [x] <> a) by (intros x a E; apply (f_equal (@length char)) in E; rewrite app_length in E; cbn in E; lia).
    match goal with A : consumes _ _ |- _ => inversion A; subst end; inversion t; subst;
      try match goal with A : one_text _ _ _ _ _ |- _ => apply one_text_shape in A; destruct A as (A & _ & _);
        apply (f_equal (@length char)) in A; rewrite app_length in A; cbn in A; lia end;
      match goal with A : one_char _ _ _ _ _ |- _ => apply one_char_shape in A; destruct A as (c' & A & _ & _ & _); symmetry in A; exact (L _ _ A) end.
  - match goal with A : consumes _ _ |- _ => inversion A; subst end. injection Z as E1 E2 _. rewrite E1, E2 in *. eapply H; [assumption|reflexivity].
  - subst r. match goal with A : consumes _ _ |- _ => inversion A; subst end. eapply H; try assumption; reflexivity.
  - subst r. match goal with A : consumes _ _ |- _ => inversion A; subst end. eapply H; [|reflexivity]. eexists. split; eassumption.
  - subst r. match goal with A : consumes _ _ |- _ => inversion A; subst end. eapply H; [assumption|reflexivity].
  - subst res. match goal with A : consumes _ _ |- _ => inversion A; subst end. eapply H; [assumption|reflexivity].
  - match goal with A : exists t, In t [] /\ _ |- _ => destruct A as (? & [] & _) end.
  - subst r. destruct (forward_antisym pre post pre' post' K' K'0 (peg_forward _ _ _ _ _ _ _ p) (items_forward _ _ _ _ _ _ _ p0)) as (-> & ->).
    match goal with A : exists t, In t _ /\ _ |- _ => destruct A as (x & [<-|I] & C) end; [eapply H; [exact C|reflexivity]|eapply H0; [eauto|reflexivity]].
  - match goal with A : Forall _ _ |- _ => inversion A; subst end. eapply H; eassumption.
  - subst r. match goal with A : Forall _ _ |- _ => inversion A; subst end. eapply H0; [assumption|reflexivity].
  - lia.
  - subst. destruct (forward_antisym pre post pre' post' K' K'0 (items_forward _ _ _ _ _ _ _ p) (proj2 (proj2 (proj2 (peg_forward_all _ _))) _ _ _ _ _ _ _ _ _ p0)) as (-> & ->).
    eapply H; [|reflexivity]. exists t. split; [left; reflexivity|assumption].
  - lia.
Qed.
Lemma consumes_not_empty : forall env property n, consumes env n -> ~ passes env property n.
Proof. intros env property n C (pre & post & K & K' & H). exact (proj1 (consumes_all env property) _ _ _ _ _ H C K' eq_refl). Qed.
