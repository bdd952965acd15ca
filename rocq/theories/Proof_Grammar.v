(** The reader of grammar files against the meaning of grammar files. *)
From Coq Require Import String List NArith ZArith Arith Bool Lia ZifyBool ZifyNat ZifyN.
From Verif Require Import Model_Text Model_Message Model_Unescape Model_Meta Model_Grammar
  Spec_Unescape Spec_Message Spec_Grammar Proof_Text Proof_Message Proof_Unescape Proof_Literal Proof_Pratt.
Import ListNotations.
Open Scope list_scope.

(** Faults. *)
Ltac cleans := repeat first [assumption|apply Forall_nil|apply Forall_cons]; auto.
Definition fault_in (ps : list ppair) (e : perror) : Prop :=
  exists l q l', ps = l ++ q :: l' /\ Forall clean l /\ first_fault q e.

Lemma fault_in_app_l : forall l l' e, fault_in l e -> fault_in (l ++ l') e.
Proof.
  intros l l' e (a & q & b & -> & C & F). exists a, q, (b ++ l'). rewrite <- app_assoc. auto.
Qed.
Lemma fault_in_app_r : forall l l' e, Forall clean l -> fault_in l' e -> fault_in (l ++ l') e.
Proof.
  intros l l' e C' (a & q & b & -> & C & F). exists (l ++ a), q, b. rewrite <- app_assoc. split; [reflexivity|].
  split; [apply Forall_app; auto|exact F].
Qed.
Lemma fault_in_one : forall p e, first_fault p e -> fault_in [p] e.
Proof. intros p e F. exists [], p, []. auto. Qed.
Lemma fault_in_parts : forall p e, fault_in (parts p) e -> first_fault p e.
Proof. intros p e (a & q & b & E & C & F). eapply FF_part; eassumption. Qed.

(** Pairs of rules that cannot be faulty. *)
Definition plain_rule (r : grule) : bool :=
  match r with
  | R_expression | R_term | R_path | R_call | R_slice | R_bounded_repeat | R_range
  | R_string | R_insensitive_string | R_character | R_number | R_integer => false
  | _ => true
  end.
Lemma clean_plain : forall p, plain_rule (pp_rule p) = true -> clean p.
Proof.
  intros p H. constructor.
  - unfold parts. destruct (pp_rule p); try discriminate; constructor.
  - intros e F. inversion F; subst; discriminate.
Qed.
Lemma no_own_fault_composite : forall r s a b l e, composite r = true -> r <> R_bounded_repeat ->
  ~ own_fault (mkPPair r s a b l) e.
Proof. intros r s a b l e C N F. inversion F; subst; congruence || discriminate. Qed.
Lemma clean_parts : forall r s a b l, composite r = true -> r <> R_bounded_repeat -> Forall clean l ->
  clean (mkPPair r s a b l).
Proof.
  intros r s a b l C N F. constructor.
  - unfold parts. cbn [pp_rule pp_inner]. rewrite C. exact F.
  - intro e. apply no_own_fault_composite; assumption.
Qed.
Lemma fault_parts : forall r s a b l e, composite r = true -> fault_in l e -> first_fault (mkPPair r s a b l) e.
Proof. intros r s a b l e C F. apply fault_in_parts. unfold parts. cbn [pp_rule pp_inner]. rewrite C. exact F. Qed.

(** The outcome of reading pairs [ps]: something that satisfies [D] if there is no fault in them, or
    the first fault. *)
Definition good {A : Type} (r : presult A) (ps : list ppair) (D : A -> Prop) : Prop :=
  (exists n, r = Ret (inl n) /\ D n /\ Forall clean ps) \/ (exists e, r = Ret (inr e) /\ fault_in ps e).

(** Slices. *)
Lemma slice_between : forall x s z, len_utf8 z = 1 ->
  len_minus (x ++ s ++ [z]) 1 = Ret (blen (x ++ s)) /\ slice (x ++ s ++ [z]) (blen x) (blen (x ++ s)) = Ret s.
Proof.
  intros x s z L. split.
  - unfold len_minus. rewrite !blen_app. cbn [blen]. rewrite L.
    replace (blen x + (blen s + (1 + 0)) <? 1) with false by lia. f_equal. lia.
  - unfold slice. rewrite get_range_app. reflexivity.
Qed.
Ltac sliced x s z :=
  let L := fresh in let SL := fresh in
  destruct (slice_between x s z eq_refl) as (L & SL);
  match goal with |- context [len_minus ?t 1] =>
    rewrite (L : len_minus t 1 = Ret (blen (x ++ s))); cbn [obind];
    match goal with |- context [slice t ?i ?j] => rewrite (SL : slice t i j = Ret s) end; cbn [obind]
  end.

(** Terminals. *)
Section Terminal.
Variable span : mspan.
Notation path := (ms_path span).

Lemma string_good : forall s a b l, inner_str s ->
  let p := mkPPair R_string (34%N :: s ++ [34%N]) a b l in
  good (parse_string p span) [p] (fun n => exists e, den_terminal p e /\ n = mkNode e (at_pair path p)).
Proof.
  intros s a b l I p. unfold parse_string. cbn [pp_str p].
  sliced [34%N] s 34%N. unfold unescape_or. destruct (unescape_literal s I) as [(r & E & D)|(E & N)]; rewrite E; cbn [obind pbind ok err].
  - left. eexists. split; [reflexivity|]. split.
    + exists (PStr r). split; [constructor; exact D|reflexivity].
    + constructor; [|constructor]. constructor; [constructor|]. intros e F. inversion F; subst.
      match goal with H : _ ++ [34%N] = s ++ [34%N] |- _ => apply app_inj_tail in H; destruct H as (-> & _) end.
      match goal with H : forall r, ~ _ |- _ => exact (H r D) end.
  - right. eexists. split; [reflexivity|]. apply fault_in_one, FF_own; [constructor|]. constructor. exact N.
Qed.

Lemma insensitive_good : forall s a b l, inner_str s ->
  let p := mkPPair R_insensitive_string (105%N :: 34%N :: s ++ [34%N]) a b l in
  good (parse_insensitive_string p span) [p] (fun n => exists e, den_terminal p e /\ n = mkNode e (at_pair path p)).
Proof.
  intros s a b l I p. unfold parse_insensitive_string. cbn [pp_str p].
  sliced [105%N; 34%N] s 34%N. unfold unescape_or. destruct (unescape_literal s I) as [(r & E & D)|(E & N)]; rewrite E; cbn [obind pbind ok err].
  - left. eexists. split; [reflexivity|]. split.
    + exists (PInsens r). split; [constructor; exact D|reflexivity].
    + constructor; [|constructor]. constructor; [constructor|]. intros e F. inversion F; subst.
      match goal with H : _ ++ [34%N] = s ++ [34%N] |- _ => apply app_inj_tail in H; destruct H as (-> & _) end.
      match goal with H : forall r, ~ _ |- _ => exact (H r D) end.
  - right. eexists. split; [reflexivity|]. apply fault_in_one, FF_own; [constructor|]. constructor. exact N.
Qed.

Lemma char_good : forall p, syn_character p -> tame p ->
  good (char_content p) [p] (fun t => exists c, t = [c] /\ den_character p c).
Proof.
  intros p [s a b l C] TM. assert (NQ : s <> [34%N]).
  { inversion TM as [p' T1 _ _]; subst. specialize (T1 eq_refl). cbn [pp_str] in T1. intros ->. apply T1. reflexivity. }
  unfold char_content. cbn [pp_str].
  sliced [39%N] s 39%N. unfold unescape_or.
  destruct (unescape_char s C NQ) as [(c & E & D)|(E & N)]; rewrite E; cbn [obind pbind ok err].
  - left. eexists. split; [reflexivity|]. split.
    + exists c. split; [reflexivity|]. constructor. exact D.
    + constructor; [|constructor]. constructor; [constructor|]. intros e F. inversion F; subst.
      match goal with H : _ ++ [39%N] = s ++ [39%N] |- _ => apply app_inj_tail in H; destruct H as (-> & _) end.
      match goal with H : forall r, ~ _ |- _ => exact (H c D) end.
  - right. eexists. split; [reflexivity|]. apply fault_in_one, FF_own; [constructor|]. constructor. exact N.
Qed.

Lemma range_good : forall s a b p1 o p2,
  syn_character p1 -> pp_rule o = R_range_operator -> syn_character p2 ->
  let p := mkPPair R_range s a b [p1; o; p2] in tame p ->
  good (parse_char_range p span) [p] (fun n => exists e, den_terminal p e /\ n = mkNode e (at_pair path p)).
Proof.
  intros s a b p1 o p2 S1 O S2 p TM.
  assert (T1 : tame p1) by (inversion TM as [p' _ _ F]; subst; cbn [pp_inner] in F; inversion F; assumption).
  assert (T2 : tame p2) by (inversion TM as [p' _ _ F]; subst; cbn [pp_inner] in F; inversion F as [|? ? ? F1]; inversion F1 as [|? ? ? F2]; inversion F2; assumption).
  unfold parse_char_range. cbn [pp_inner p next obind].
  assert (CO : clean o) by (apply clean_plain; rewrite O; reflexivity).
  destruct (char_good p1 S1 T1) as [(t1 & E1 & (c1 & -> & D1) & C1)|(e & E1 & F1)]; rewrite E1; cbn [pbind obind].
  2:{ right. eexists. split; [reflexivity|]. apply fault_in_one, fault_parts; [reflexivity|].
      apply (fault_in_app_l [p1] [o; p2]), F1. }
  destruct (char_good p2 S2 T2) as [(t2 & E2 & (c2 & -> & D2) & C2)|(e & E2 & F2)]; rewrite E2; cbn [pbind obind].
  2:{ right. eexists. split; [reflexivity|]. apply fault_in_one, fault_parts; [reflexivity|].
      apply (fault_in_app_r [p1; o] [p2]); [|exact F2]. inversion C1; subst. cleans. }
  cbn [hd_error or_panic obind]. left. eexists. split; [reflexivity|]. split.
  - exists (PRange c1 c2). split; [constructor; assumption|reflexivity].
  - constructor; [|constructor]. apply clean_parts; [reflexivity|discriminate|].
    inversion C1; inversion C2; subst. cleans.
Qed.

Lemma raw_good : forall s a b q1 content q2,
  pp_rule q1 = R_quote -> pp_rule content = R_inner_raw_str -> pp_rule q2 = R_quote ->
  let p := mkPPair R_raw_string s a b [q1; content; q2] in
  good (parse_raw_string p span) [p] (fun n => exists e, den_terminal p e /\ n = mkNode e (at_pair path p)).
Proof.
  intros s a b q1 content q2 Q1 QC Q2 p. left. eexists. split; [reflexivity|]. split.
  - exists (PStr (pp_str content)). split; [|reflexivity]. apply (Den_raw s a b [] q1 content q2); auto.
  - constructor; [|constructor]. apply clean_plain. reflexivity.
Qed.
End Terminal.

(** Numbers and their bounds. *)
Lemma number_good : forall p n, number_pair p n ->
  (pair_to parse_usize p = ok n /\ clean p /\ (n <= usize_limit)%N) \/
  (exists e, pair_to parse_usize p = Ret (inr e) /\ first_fault p e).
Proof.
  intros [r s a b l] n (R & N). cbn [pp_rule pp_str] in *. subst r. unfold pair_to. cbn [pp_str].
  rewrite (parse_usize_notation s n N). destruct (N.leb_spec n usize_limit) as [L|L]; [left|right].
  - split; [reflexivity|]. split; [|exact L]. constructor; [constructor|]. intros e F.
    inversion F as [| | |s' a' b' l' m M ML| | |]; subst. destruct N as (_ & V & _). destruct M as (_ & V' & _). lia.
  - eexists. split; [reflexivity|]. apply FF_own; [constructor|]. econstructor; eassumption.
Qed.
Lemma integer_text_unique : forall t x y, integer_text t x -> integer_text t y -> x = y.
Proof.
  assert (P : forall t n m, notation t n -> notation t m -> n = m) by (intros t n m (_ & <- & _) (_ & <- & _); reflexivity).
  assert (H1 : forall u n, ~ notation (43%N :: u) n).
  { intros u n H. destruct (notation_head _ _ H) as (c & r & E & B). injection E as <- _. lia. }
  assert (H2 : forall u n, ~ notation (45%N :: u) n).
  { intros u n H. destruct (notation_head _ _ H) as (c & r & E & B). injection E as <- _. lia. }
  intros t x y X Y. destruct X as [u n N|u n N|u n N]; inversion Y as [v m M E|v m M E|v m M E]; subst;
    try (exfalso; first [eapply H1; eassumption|eapply H2; eassumption]); f_equal; try f_equal; eapply P; eassumption.
Qed.
Lemma integer_good : forall p z, integer_pair p z ->
  (pair_to parse_isize p = ok z /\ clean p /\ (isize_low <= z <= isize_high)%Z) \/
  (exists e, pair_to parse_isize p = Ret (inr e) /\ first_fault p e).
Proof.
  intros [r s a b l] z (R & N). cbn [pp_rule pp_str] in *. subst r. unfold pair_to. cbn [pp_str].
  rewrite (parse_isize_integer s z N). destruct ((isize_low <=? z) && (z <=? isize_high))%Z eqn:L; [left|right].
  - split; [reflexivity|]. split; [|lia]. constructor; [constructor|]. intros e F.
    inversion F as [| | | |s' a' b' l' m M ML| |]; subst. rewrite (integer_text_unique s z m N M) in L. lia.
  - eexists. split; [reflexivity|]. apply FF_own; [constructor|]. econstructor; [eassumption|]. lia.
Qed.

Definition each {T : Type} (Q : T -> Prop) (x : option T) : Prop := forall v, x = Some v -> Q v.
Lemma bounds_good : forall (T : Type) (parse : text -> option T) (num : ppair -> T -> Prop) (Q : T -> Prop) o l c x y,
  (forall p v, num p v ->
     (pair_to parse p = ok v /\ clean p /\ Q v) \/ (exists e, pair_to parse p = Ret (inr e) /\ first_fault p e)) ->
  (forall p v, num p v -> pp_rule p = R_number \/ pp_rule p = R_integer) ->
  bounds num l x y -> pp_rule c = R_closing_brace \/ pp_rule c = R_closing_brack ->
  good (parse_range parse (o :: l ++ [c])) l (fun r => r = mkRange x y /\ each Q x /\ each Q y).
Proof.
  intros T parse num Q o l c x y H1 H2 B C.
  assert (CC : grule_eqb (pp_rule c) R_number || grule_eqb (pp_rule c) R_integer = false) by (destruct C as [-> | ->]; reflexivity).
  assert (NUM : forall p v, num p v -> grule_eqb (pp_rule p) R_number || grule_eqb (pp_rule p) R_integer = true)
    by (intros p v N; destruct (H2 p v N) as [-> | ->]; reflexivity).
  assert (OP : forall q, pp_rule q = R_range_operator -> clean q) by (intros q E; apply clean_plain; rewrite E; reflexivity).
  destruct B as [p q r u v N1 O N2|p q u N1 O|q r v O N2|q O]; unfold parse_range; cbn [next obind app filter map].
  - rewrite (NUM p u N1), (NUM r v N2), CC, O. cbn [grule_eqb]. cbn [collect_results].
    change (grule_eqb R_range_operator R_number || grule_eqb R_range_operator R_integer) with false. cbv iota. cbn [collect_results].
    destruct (H1 p u N1) as [(E1 & C1 & Q1)|(e & E1 & F1)]; rewrite E1; cbn [pbind obind ok].
    2:{ right. eexists. split; [reflexivity|]. apply (fault_in_app_l [p] [q; r]), fault_in_one, F1. }
    destruct (H1 r v N2) as [(E2 & C2 & Q2)|(e & E2 & F2)]; rewrite E2; cbn [pbind obind ok].
    2:{ right. eexists. split; [reflexivity|]. apply (fault_in_app_r [p; q] [r]), fault_in_one, F2. cleans. }
    left. eexists. split.
    + destruct (H2 p u N1) as [X|X], (H2 r v N2) as [Y|Y], C as [Z|Z]; rewrite ?X, ?Y, ?Z; reflexivity.
    + split; [split; [reflexivity|split; intros w W; injection W as <-; assumption]|]. cleans.
  - rewrite (NUM p u N1), CC, O.
    change (grule_eqb R_range_operator R_number || grule_eqb R_range_operator R_integer) with false. cbv iota. cbn [collect_results].
    destruct (H1 p u N1) as [(E1 & C1 & Q1)|(e & E1 & F1)]; rewrite E1; cbn [pbind obind ok].
    2:{ right. eexists. split; [reflexivity|]. apply (fault_in_app_l [p] [q]), fault_in_one, F1. }
    left. eexists. split.
    + destruct (H2 p u N1) as [X|X], C as [Z|Z]; rewrite ?X, ?Z; reflexivity.
    + split; [split; [reflexivity|split; intros w W; [injection W as <-; assumption|discriminate]]|]. cleans.
  - rewrite (NUM r v N2), CC, O.
    change (grule_eqb R_range_operator R_number || grule_eqb R_range_operator R_integer) with false. cbv iota. cbn [collect_results].
    destruct (H1 r v N2) as [(E2 & C2 & Q2)|(e & E2 & F2)]; rewrite E2; cbn [pbind obind ok].
    2:{ right. eexists. split; [reflexivity|]. apply (fault_in_app_r [q] [r]), fault_in_one, F2. cleans. }
    left. eexists. split.
    + destruct (H2 r v N2) as [X|X], C as [Z|Z]; rewrite ?X, ?Z; reflexivity.
    + split; [split; [reflexivity|split; intros w W; [discriminate|injection W as <-; assumption]]|]. cleans.
  - rewrite CC, O.
    change (grule_eqb R_range_operator R_number || grule_eqb R_range_operator R_integer) with false. cbv iota. cbn [collect_results pbind obind ok].
    left. eexists. split.
    + destruct C as [Z|Z]; rewrite ?Z; reflexivity.
    + split; [split; [reflexivity|split; intros w W; discriminate]|]. cleans.
Qed.

Lemma counts_good : forall o l c x y, counts l x y -> pp_rule c = R_closing_brace ->
  good (parse_range parse_usize (o :: l ++ [c])) l
    (fun r => r = mkRange x y /\ each (fun n => n <= usize_limit)%N x /\ each (fun n => n <= usize_limit)%N y).
Proof.
  intros o l c x y [l' x' y' B|p n N] C.
  - apply (bounds_good N parse_usize number_pair); auto using number_good. intros p v (R & _). auto.
  - unfold parse_range. cbn [next obind app filter map]. pose proof N as (R & _). rewrite R, C.
    change (grule_eqb R_number R_number || grule_eqb R_number R_integer) with true.
    change (grule_eqb R_closing_brace R_number || grule_eqb R_closing_brace R_integer) with false.
    cbv iota. cbn [collect_results].
    destruct (number_good p n N) as [(E1 & C1 & Q1)|(e & E1 & F1)]; rewrite E1; cbn [pbind obind ok].
    + left. eexists. split; [reflexivity|]. split; [|constructor; auto].
      split; [reflexivity|]. split; intros w W; injection W as <-; assumption.
    + right. eexists. split; [reflexivity|]. apply fault_in_one, F1.
Qed.

Lemma number_unique : forall p n m, number_pair p n -> number_pair p m -> n = m.
Proof. intros p n m (_ & _ & <- & _) (_ & _ & <- & _). reflexivity. Qed.
Lemma number_not_operator : forall p n, number_pair p n -> pp_rule p <> R_range_operator.
Proof. intros p n (R & _) E. congruence. Qed.
Lemma bounds_unique : forall (T : Type) (num : ppair -> T -> Prop) l x y x' y',
  (forall p n m, num p n -> num p m -> n = m) -> (forall p n, num p n -> pp_rule p <> R_range_operator) ->
  bounds num l x y -> bounds num l x' y' -> x = x' /\ y = y'.
Proof.
  intros T num l x y x' y' U N B B'.
  destruct B as [p q r u v N1 O N2|p q u N1 O|q r v O N2|q O];
    inversion B' as [p' q' r' u' v' N1' O' N2' E|p' q' u' N1' O' E|q' r' v' O' N2' E|q' O' E]; subst;
    try (exfalso; first [eapply N; [exact N1'|assumption]|eapply N; [exact N1|assumption]
                        |eapply N; [exact N2'|assumption]|eapply N; [exact N2|assumption]]);
    split; try reflexivity; f_equal; eapply U; eassumption.
Qed.
Lemma counts_unique : forall l x y x' y', counts l x y -> counts l x' y' -> x = x' /\ y = y'.
Proof.
  intros l x y x' y' [l0 x0 y0 B|p n N] C'; inversion C' as [l1 x1 y1 B' E|p' n' N' E]; subst.
  - eapply bounds_unique; eauto using number_unique, number_not_operator.
  - exfalso. inversion B; subst; eapply number_not_operator; eassumption.
  - exfalso. inversion B'; subst; eapply number_not_operator; eassumption.
  - rewrite (number_unique p n n') by assumption. auto.
Qed.
Lemma extent_unique : forall l i j i' j', extent l i j -> extent l i' j' -> i = i' /\ j = j'.
Proof.
  intros l i j i' j' (p & q & l1 & l2 & E1 & E2 & -> & ->) (p' & q' & l1' & l2' & E1' & E2' & -> & ->).
  rewrite E1 in E1'. injection E1' as -> _. rewrite E2 in E2'. apply app_inj_tail in E2'. destruct E2' as (_ & ->). auto.
Qed.

Lemma inner_span_extent : forall r s a b o l c i j, extent l i j -> i <= j ->
  inner_span (mkPPair r s a b (o :: l ++ [c])) = Ret (i, j).
Proof.
  intros r s a b o l c i j (p & q & l1 & l2 & E1 & E2 & -> & ->) L. unfold inner_span. cbn [pp_inner next obind].
  assert (N1 : next (l ++ [c]) = Ret (p, l1 ++ [c])) by (rewrite E1; reflexivity).
  assert (N2 : rev (l ++ [c]) = c :: q :: rev l2) by (rewrite E2, !rev_app_distr; reflexivity).
  rewrite N1, N2. cbn [next obind].
  replace (pp_end q <? pp_start p) with false by lia. reflexivity.
Qed.

Lemma bounded_good : forall s a b o l c x y i j child,
  pp_rule o = R_opening_brace -> counts l x y -> extent l i j -> i <= j -> pp_rule c = R_closing_brace ->
  let p := mkPPair R_bounded_repeat s a b (o :: l ++ [c]) in
  good (parse_bounded_repeat p child) [p] (den_postfix p child).
Proof.
  intros s a b o l c x y i j child O C X L CL p. unfold parse_bounded_repeat. cbn [pp_inner p].
  assert (CO : clean o) by (apply clean_plain; rewrite O; reflexivity).
  assert (CC : clean c) by (apply clean_plain; rewrite CL; reflexivity).
  destruct (counts_good o l c x y C CL) as [(r & E & (-> & Qx & Qy) & CLN)|(e & E & F)]; rewrite E; cbn [pbind obind].
  2:{ right. eexists. split; [reflexivity|]. apply fault_in_one, fault_parts; [reflexivity|].
      apply (fault_in_app_r [o] (l ++ [c])); [cleans|]. apply fault_in_app_l, F. }
  assert (PARTS : Forall clean (parts p)) by
    (unfold parts; cbn [pp_rule pp_inner p composite]; constructor; [exact CO|apply Forall_app; split; [exact CLN|cleans]]).
  cbn [r_start r_end].
  assert (INJ : forall o' l' c', o :: l ++ [c] = o' :: l' ++ [c'] -> l' = l).
  { intros o' l' c' Q. injection Q as _ Q. apply app_inj_tail in Q. destruct Q as (-> & _). reflexivity. }
  assert (OKAY : sensible x y -> good (ok (PRepRange child (mkRange x y))) [p] (den_postfix p child)).
  { intro S. left. eexists. split; [reflexivity|]. split; [constructor; assumption|]. cleans.
    constructor; [exact PARTS|]. intros e F. destruct S as (S1 & S2 & S3).
    inversion F as [| | | | |s' a' b' o' l' c' x' y' tx ty i' j' C' LT N1 N2 X'|s' a' b' o' l' c' x' i' j' C' M X']; subst.
    - match goal with Q : _ ++ [_] = _ ++ [_] |- _ => apply app_inj_tail in Q; destruct Q as (-> & _) end. destruct (counts_unique _ _ _ _ _ C C') as (-> & ->).
      specialize (S3 _ _ eq_refl eq_refl). lia.
    - match goal with Q : _ ++ [_] = _ ++ [_] |- _ => apply app_inj_tail in Q; destruct Q as (-> & _) end. destruct (counts_unique _ _ _ _ _ C C') as (-> & ->).
      specialize (S2 _ eq_refl). lia. }
  assert (ZERO : y = Some 0%N -> (forall m, x = Some m -> m = 0%N) ->
    good (let! (i, j) := inner_span p in @err parse_expr (lit "cannot repeat 0 times") i j) [p] (den_postfix p child)).
  { intros EY EX. unfold p. rewrite (inner_span_extent _ s a b o l c i j X L). cbn [obind]. right. eexists. split; [reflexivity|].
    apply fault_in_one, FF_own; [exact PARTS|]. subst y. eapply F_zero; eassumption. }
  unfold each in *. destruct y as [y|].
  2:{ assert (S : sensible x None) by (split; [exact Qx|split; intros; discriminate]).
      destruct x; apply OKAY, S. }
  destruct x as [x|].
  - destruct (N.ltb_spec y x) as [LT|GE].
    + unfold p. rewrite (inner_span_extent _ s a b o l c i j X L). cbn [obind]. right. eexists. split; [reflexivity|].
      apply fault_in_one, FF_own; [exact PARTS|]. eapply F_void; [exact C|exact LT|apply decimal_N_spec|apply decimal_N_spec|exact X].
    + destruct y as [|y].
      * apply ZERO; [reflexivity|]. intros m M. injection M as <-. lia.
      * apply OKAY. split; [exact Qx|]. split; [intros n N; injection N as <-; specialize (Qy _ eq_refl); lia|].
        intros m n M N. injection M as <-. injection N as <-. exact GE.
  - destruct y as [|y].
    + apply ZERO; [reflexivity|]. discriminate.
    + apply OKAY. split; [exact Qx|]. split; [intros n N; injection N as <-; specialize (Qy _ eq_refl); lia|]. discriminate.
Qed.

(** Postfix and prefix operators. *)
Section Node.
Variable path : text.

Lemma simple_postfix_clean : forall p f, simple_postfix (pp_rule p) f -> clean p.
Proof. intros p f H. apply clean_plain. inversion H; reflexivity. Qed.
Lemma postfix_good : forall p child, syn_postfix p -> ms_path (n_span child) = path ->
  good (parse_postfix p child) [p]
    (fun n => exists e, den_postfix p child e /\ n = mkNode e (between path (from_of child) (pp_end p))).
Proof.
  intros p child S P.
  assert (W : span_with_end (n_span child) (pp_end p) = between path (from_of child) (pp_end p)) by
    (unfold span_with_end, between; rewrite P; reflexivity).
  destruct S as [p f S|s a b o l c x y i j O C X L CL].
  - pose proof (simple_postfix_clean p f S) as CP. pose proof (Den_simple p f child S) as D.
    left. unfold parse_postfix. inversion S as [R E|R E|R E|R E|R E]; rewrite <- E in D;
      (eexists; split; [rewrite W; reflexivity|]; split; [eexists; split; [exact D|reflexivity]|cleans]).
  - unfold parse_postfix. set (p := mkPPair R_bounded_repeat s a b (o :: l ++ [c])) in *. cbn [pp_rule p]. fold p.
    destruct (bounded_good s a b o l c x y i j child O C X L CL) as [(e & E & D & CP)|(e & E & F)]; fold p in E; rewrite E; cbn [pbind obind].
    + left. eexists. split; [rewrite W; reflexivity|]. split; [|exact CP]. exists e. split; [exact D|reflexivity].
    + right. eexists. split; [reflexivity|]. exact F.
Qed.

Lemma fold_postfix_good : forall post, Forall syn_postfix post -> forall l child,
  ms_path (n_span child) = path -> den_postfixed path l child ->
  good (fold_postfix post child) post (fun n => ms_path (n_span n) = path /\ den_postfixed path (l ++ post) n).
Proof.
  induction 1 as [|p post S F IH]; intros l child P D; cbn [fold_postfix].
  - left. eexists. split; [reflexivity|]. rewrite app_nil_r. auto.
  - destruct (postfix_good p child S P) as [(n & E & (e & De & ->) & CP)|(e & E & FF)]; rewrite E; cbn [pbind obind].
    + pose proof (Den_post path l child p e D De) as D'.
      destruct (IH (l ++ [p]) (mkNode e (between path (from_of child) (pp_end p))) eq_refl D') as [(n & E' & (P' & D'') & CL)|(e' & E' & FF)]; rewrite E'.
      * left. eexists. split; [reflexivity|]. rewrite <- app_assoc in D''. split; [auto|].
        apply (Forall_app clean [p] post). auto.
      * right. eexists. split; [reflexivity|]. apply (fault_in_app_r [p] post); assumption.
    + right. eexists. split; [reflexivity|]. apply (fault_in_app_l [p] post), FF.
Qed.

Lemma fold_prefix_den : forall pre, Forall (fun p => prefix_op (pp_rule p)) pre -> forall l child,
  ms_path (n_span child) = path -> den_prefixed path l child ->
  exists n, fold_prefix pre child = Ret n /\ ms_path (n_span n) = path /\ den_prefixed path (pre ++ l) n.
Proof.
  induction 1 as [|p pre R F IH]; intros l child P D; cbn [fold_prefix app].
  - exists child. auto.
  - destruct (IH l child P D) as (n & E & P' & D'). rewrite E. cbn [obind]. unfold parse_prefix.
    destruct R as [R|R]; rewrite R; (eexists; split; [reflexivity|]; split; [exact P'|]).
    + unfold span_with_start. rewrite P'. apply Den_pos; assumption.
    + unfold span_with_start. rewrite P'. apply Den_neg; assumption.
Qed.

(** One step of the loop, without looking at the rest. *)
Lemma term_loop_open : forall operand o l x y e, pp_rule o = R_opening_paren ->
  term_loop operand (o :: l) x y e = term_loop operand l x y e.
Proof. intros operand o l x y e O. cbn [term_loop]. rewrite O. reflexivity. Qed.
Lemma term_loop_close : forall operand o l x y e, pp_rule o = R_closing_paren ->
  term_loop operand (o :: l) x y e = term_loop operand l x y e.
Proof. intros operand o l x y e O. cbn [term_loop]. rewrite O. reflexivity. Qed.
Lemma term_loop_expression : forall operand p l x y e r, pp_rule p = R_expression -> operand p = Some r ->
  term_loop operand (p :: l) x y e = let? n := r in term_loop operand l x y (Some n).
Proof. intros operand p l x y e r O E. cbn [term_loop]. rewrite O, E. reflexivity. Qed.
Lemma term_loop_pre : forall operand pre l x y e, Forall (fun p => prefix_op (pp_rule p)) pre ->
  term_loop operand (pre ++ l) x y e = term_loop operand l (x ++ pre) y e.
Proof.
  intros operand pre. induction pre as [|p pre IH]; intros l x y e F; [rewrite app_nil_r; reflexivity|].
  inversion F as [|? ? R F']; subst. cbn [app term_loop].
  destruct R as [R|R]; rewrite R, IH by exact F'; rewrite <- app_assoc; reflexivity.
Qed.
Lemma term_loop_post : forall operand post x y e, Forall syn_postfix post ->
  term_loop operand post x y e = ok (x, y ++ post, e).
Proof.
  intros operand post. induction post as [|p post IH]; intros x y e F; [rewrite app_nil_r; reflexivity|].
  inversion F as [|? ? S F']; subst. cbn [term_loop].
  assert (E : term_loop operand post x (y ++ [p]) e = ok (x, y ++ p :: post, e)) by
    (rewrite IH by exact F'; rewrite <- app_assoc; reflexivity).
  destruct S as [p f S|]; [|exact E]. inversion S; exact E.
Qed.

Lemma path_segments_spec : forall l names, segments l names -> forall fuel rest,
  (match rest with p :: _ => pp_rule p <> R_identifier /\ pp_rule p <> R_ancestry_operator | [] => True end) ->
  length l <= fuel -> path_segments fuel (l ++ rest) = (names, rest).
Proof.
  induction 1 as [p R|p q l ns R Q SG IH]; intros fuel rest H L; cbn [length] in L.
  - destruct fuel as [|k]; [lia|]. cbn [app path_segments]. rewrite R.
    assert (SK : skip R_ancestry_operator rest = rest).
    { destruct rest as [|q r]; [reflexivity|]. cbn [skip]. destruct (grule_eqb_spec (pp_rule q) R_ancestry_operator); [exfalso; apply H; assumption|reflexivity]. }
    rewrite SK. destruct k as [|k]; [reflexivity|]. cbn [path_segments]. destruct rest as [|q r]; [reflexivity|].
    destruct H as (H & _). destruct (pp_rule q); try reflexivity. congruence.
  - destruct fuel as [|[|k]]; [lia|lia|]. remember (S k) as k1. cbn [app path_segments]. rewrite R. cbn [skip]. rewrite Q.
    change (grule_eqb R_ancestry_operator R_ancestry_operator) with true. cbv iota. rewrite IH by (auto; lia). reflexivity.
Qed.
End Node.

(** Operands and operators. *)
Inductive syn_sequence : list ppair -> Prop :=
| Ss_one t : syn_term t -> syn_sequence [t]
| Ss_more t o tr l : syn_term t -> sequence_op (pp_rule o) tr -> syn_sequence l -> syn_sequence (t :: o :: l).
Lemma operands_split : forall k l, length l <= k -> syn_operands l ->
  syn_sequence l \/
  exists l1 o l2, l = l1 ++ o :: l2 /\ syn_sequence l1 /\ pp_rule o = R_choice_operator /\ syn_operands l2.
Proof.
  induction k as [|k IH]; intros l L S; inversion S as [t T|t o l' T O S']; subst; cbn [length] in L; try lia.
  - left. constructor. exact T.
  - destruct O as [O|(tr & O)].
    + right. exists [t], o, l'. split; [reflexivity|]. split; [constructor; exact T|]. auto.
    + destruct (IH l') as [Q|(l1 & o1 & l2 & -> & Q & O1 & S2)]; [lia|exact S'| |].
      * left. econstructor; eassumption.
      * right. exists (t :: o :: l1), o1, l2. split; [reflexivity|]. split; [econstructor; eassumption|]. auto.
Qed.

Section Operands.
Variable path : text.
Variable primary : ppair -> presult parse_node.
Definition fine (v : parse_node + perror) (l : list ppair) (D : parse_node -> Prop) : Prop :=
  match v with
  | inl n => ms_path (n_span n) = path /\ D n /\ Forall clean l
  | inr e => fault_in l e
  end.

Lemma infix_fine : forall v l o w l' (D1 D2 D : parse_node -> Prop) f,
  fine v l D1 -> fine w l' D2 -> clean o ->
  (forall n m, parse_infix (inl n) o (inl m) = ok (mkNode (f n m) (span_union (n_span n) (n_span m)))) ->
  (forall n m, D1 n -> D2 m -> D (mkNode (f n m) (between path (from_of n) (to_of m)))) ->
  exists r, parse_infix v o w = Ret r /\ fine r (l ++ o :: l') D.
Proof.
  intros [n|e] l o [m|e'] l' D1 D2 D f V W C P H; cbn [fine] in *.
  - destruct V as (P1 & V & C1), W as (P2 & W & C2). rewrite P. eexists. split; [reflexivity|]. cbn [fine n_span].
    unfold span_union. cbn [ms_path]. split; [exact P1|]. split; [rewrite P1; apply H; assumption|].
    apply Forall_app. split; [exact C1|]. constructor; assumption.
  - exists (inr e'). split; [reflexivity|]. cbn [fine]. apply fault_in_app_r; [apply V|].
    apply (fault_in_app_r [o] l'); [cleans|exact W].
  - exists (inr e). split; [reflexivity|]. cbn [fine]. apply fault_in_app_l, V.
  - exists (inr e). split; [reflexivity|]. cbn [fine]. apply fault_in_app_l, V.
Qed.

Definition good_node (r : presult parse_node) (p : ppair) (D : parse_node -> Prop) : Prop :=
  good r [p] (fun n => ms_path (n_span n) = path /\ D n).
Lemma good_node_fine : forall r p D, good_node r p D -> exists v, r = Ret v /\ fine v [p] D.
Proof.
  intros r p D [(n & -> & (P & H) & C)|(e & -> & F)]; eexists; (split; [reflexivity|]); cbn [fine]; auto.
Qed.
Lemma sequence_op_infix : forall o tr, sequence_op (pp_rule o) tr ->
  clean o /\ rule_operators (pp_rule o) = Some 20 /\
  forall n m, parse_infix (inl n) o (inl m) = ok (mkNode (PSeq n m tr) (span_union (n_span n) (n_span m))).
Proof.
  intros o tr H. assert (C : clean o) by (apply clean_plain; inversion H; reflexivity). split; [exact C|].
  unfold parse_infix. inversion H; split; reflexivity.
Qed.
Lemma term_rule : forall t, syn_term t -> rule_operators (pp_rule t) = None.
Proof. intros t [s a b pre core post _ _ _]. reflexivity. Qed.

Lemma sequence_fine : forall l, syn_sequence l ->
  (forall t, In t l -> syn_term t -> good_node (primary t) t (den_term path t)) ->
  exists v, ev_seq (parse_node + perror) primary parse_infix l v /\ fine v l (den_sequence path l).
Proof.
  induction 1 as [t T|t o tr l T O S IH]; intro H.
  - destruct (good_node_fine _ _ _ (H t (or_introl eq_refl) T)) as (v & E & F). exists v.
    split; [constructor; [apply term_rule, T|exact E]|]. destruct v as [n|e]; cbn [fine] in *; [|exact F].
    destruct F as (P & D & C). split; [exact P|]. split; [constructor; exact D|exact C].
  - destruct (good_node_fine _ _ _ (H t (or_introl eq_refl) T)) as (v & E & F).
    destruct IH as (w & EW & FW); [intros; apply H; [right; right; assumption|assumption]|].
    destruct (sequence_op_infix o tr O) as (C & R & I).
    destruct (infix_fine v [t] o w l _ _ (den_sequence path (t :: o :: l)) (fun n m => PSeq n m tr) F FW C I) as (r & ER & FR).
    { intros n m D1 D2. constructor; assumption. }
    exists r. split; [|exact FR]. econstructor; eauto using term_rule.
Qed.

Lemma operands_fine : forall k l, length l <= k -> syn_operands l ->
  (forall t, In t l -> syn_term t -> good_node (primary t) t (den_term path t)) ->
  exists v, ev_alts (parse_node + perror) primary parse_infix l v /\ fine v l (den_choices path l).
Proof.
  induction k as [|k IH]; intros l L S H; [destruct S; cbn [length] in L; lia|].
  destruct (operands_split _ l (le_n _) S) as [Q|(l1 & o & l2 & -> & Q & O & S2)].
  - destruct (sequence_fine l Q H) as (v & E & F). exists v. split; [constructor; exact E|].
    destruct v as [n|e]; cbn [fine] in *; [|exact F]. destruct F as (P & D & C). split; [exact P|]. split; [constructor; exact D|exact C].
  - rewrite app_length in L. cbn [length] in L.
    destruct (sequence_fine l1 Q) as (v & E & F); [intros; apply H; [apply in_or_app; auto|assumption]|].
    destruct (IH l2) as (w & EW & FW); [lia|exact S2|intros; apply H; [apply in_or_app; right; right; assumption|assumption]|].
    assert (C : clean o) by (apply clean_plain; rewrite O; reflexivity).
    destruct (infix_fine v l1 o w l2 _ _ (den_choices path (l1 ++ o :: l2)) PChoice F FW C) as (r & ER & FR).
    { intros n m. unfold parse_infix. rewrite O. reflexivity. }
    { intros n m D1 D2. constructor; assumption. }
    exists r. split; [|exact FR]. eapply Ea_more; [exact E|rewrite O; reflexivity|exact EW|exact ER].
Qed.
End Operands.

(** The arguments of a call. *)
Lemma call_args_good : forall path node c, pp_rule c = R_closing_paren -> forall k l, length l <= k -> syn_actuals l ->
  (forall e, In e l -> syn_expression e -> good_node path (node e) e (den_expression path e)) ->
  forall fuel, length l < fuel -> good (call_args node fuel (l ++ [c])) l (den_actuals path l).
Proof.
  intros path node c C. induction k as [|k IH]; intros l L S H fuel B; inversion S as [|e E|e o l' E O S']; subst; cbn [length] in *; try lia.
  1,2: destruct fuel; [lia|]; left; eexists; split; [cbn [app call_args]; rewrite C; reflexivity|]; split; [constructor|constructor].
  - destruct fuel as [|[|f]]; [lia|lia|]. remember (Datatypes.S f) as f1. cbn [app call_args].
    assert (R : pp_rule e = R_expression) by (destruct E; reflexivity). rewrite R.
    destruct (H e (or_introl eq_refl) E) as [(n & EN & (_ & D) & CL)|(x & EN & F)]; rewrite EN; cbn [pbind obind].
    + cbn [skip]. rewrite C. change (grule_eqb R_closing_paren R_comma) with false. cbv iota. subst f1. cbn [call_args]. rewrite C. cbn [pbind obind ok].
      left. eexists. split; [reflexivity|]. split; [constructor; exact D|exact CL].
    + right. eexists. split; [reflexivity|]. exact F.
  - destruct fuel as [|f]; [lia|]. cbn [app call_args].
    assert (R : pp_rule e = R_expression) by (destruct E; reflexivity). rewrite R.
    assert (CO : clean o) by (apply clean_plain; rewrite O; reflexivity).
    destruct (H e (or_introl eq_refl) E) as [(n & EN & (_ & D) & CL)|(x & EN & F)]; rewrite EN; cbn [pbind obind].
    + cbn [skip]. rewrite O. change (grule_eqb R_comma R_comma) with true. cbv iota.
      destruct (IH l') with (fuel := f) as [(ns & ENS & DS & CS)|(x & ENS & F)];
        [lia|exact S'|intros; apply H; [right; right; assumption|assumption]|lia| |]; rewrite ENS; cbn [pbind obind ok].
      * left. eexists. split; [reflexivity|]. split; [constructor; assumption|]. inversion CL; subst. cleans.
      * right. eexists. split; [reflexivity|]. apply (fault_in_app_r [e; o] l'); [inversion CL; subst; cleans|exact F].
    + right. eexists. split; [reflexivity|]. apply (fault_in_app_l [e] (o :: l')), F.
Qed.

(** Depth. *)
Lemma depth_inner : forall r s a b l q, In q l -> depth q < depth (mkPPair r s a b l).
Proof.
  intros r s a b l q H. cbn [depth]. apply Nat.lt_succ_r.
  induction l as [|x l IH]; [destruct H|]. cbn [fold_right]. destruct H as [-> | H]; [lia|]. specialize (IH H). lia.
Qed.
Lemma depth_pos : forall p, 0 < depth p.
Proof. intros [r s a b l]. cbn [depth]. lia. Qed.

Lemma node_S : forall ops k span p, parse_node_fuel ops (S k) span p =
  pratt_parse (parse_node + perror) ops (parse_term_fuel ops k span) parse_infix (skip R_choice_operator (pp_inner p)).
Proof. reflexivity. Qed.
Lemma term_S : forall ops k span p, parse_term_fuel ops (S k) span p =
  let? (prefix, postfix, expression) :=
    term_loop (operand (parse_node_fuel ops k span) (parse_path_fuel ops k span) span) (pp_inner p) [] [] None in
  let! expression := or_panic expression in
  let? expression := fold_postfix postfix expression in
  let! expression := fold_prefix prefix expression in
  ok expression.
Proof. reflexivity. Qed.
Lemma path_S : forall ops k span p, parse_path_fuel ops (S k) span p =
  let? (path, args) := parse_path_raw (parse_node_fuel ops k (from_pest span p)) p in
  ok (mkNode (PPath path args) (from_pest span p)).
Proof. reflexivity. Qed.

Lemma tame_inner : forall r s a b l, tame (mkPPair r s a b l) -> Forall tame l.
Proof. intros r s a b l T. inversion T as [p _ _ F]; subst. exact F. Qed.
Lemma main : forall k span,
  (forall p, depth p <= k -> tame p -> syn_expression p ->
     good_node (ms_path span) (parse_node_fuel rule_operators k span p) p (den_expression (ms_path span) p)) /\
  (forall p, depth p <= k -> tame p -> syn_term p ->
     good_node (ms_path span) (parse_term_fuel rule_operators k span p) p (den_term (ms_path span) p)) /\
  (forall s a b l names args, let p := mkPPair R_path s a b (l ++ args) in
     depth p <= k -> tame p -> segments l names -> syn_args args ->
     good_node (ms_path span) (parse_path_fuel rule_operators k span p) p (den_core (ms_path span) [p])).
Proof.
  induction k as [|k IH]; intro span.
  { split; [|split]; intros; match goal with H : depth ?p <= 0 |- _ => pose proof (depth_pos p); lia end. }
  destruct (IH span) as (IHn & IHt & IHp). split; [|split].
  - intros p L TM X; revert L TM; destruct X as [s a b lead l LEAD S]; intros L TM. apply tame_inner in TM. rewrite node_S. cbn [pp_inner].
    assert (CL : Forall clean lead).
    { destruct LEAD as [-> | (o & -> & O)]; cleans. apply clean_plain. rewrite O. reflexivity. }
    assert (SK : skip R_choice_operator (lead ++ l) = l).
    { destruct LEAD as [-> | (o & -> & O)]; cbn [app skip].
      - destruct S as [t [? ? ? ? ? ? _ _ _]|t o l' [? ? ? ? ? ? _ _ _] _ _]; reflexivity.
      - rewrite O. reflexivity. }
    rewrite SK.
    destruct (operands_fine (ms_path span) (parse_term_fuel rule_operators k span) _ l (le_n _) S) as (v & E & F).
    { intros t I T. apply IHt; [|apply (proj1 (Forall_forall _ _) TM), in_or_app; auto|exact T]. assert (depth t < depth (mkPPair R_expression s a b (lead ++ l))) by
        (apply depth_inner, in_or_app; auto). lia. }
    match goal with |- context [pratt_parse ?T ?o ?p ?i ?l] => rewrite (pratt_alts _ _ _ _ _ E : pratt_parse T o p i l = Ret v) end.
    destruct v as [n|e]; cbn [fine] in F.
    + destruct F as (P & D & C). left. eexists. split; [reflexivity|]. split; [split; [exact P|constructor; assumption]|].
      constructor; [|constructor]. apply clean_parts; [reflexivity|discriminate|]. apply Forall_app. auto.
    + right. eexists. split; [reflexivity|]. apply fault_in_one, fault_parts; [reflexivity|]. apply fault_in_app_r; assumption.
  - intros p L TM X; revert L TM; destruct X as [s a b pre core post PRE S POST]; intros L TM. apply tame_inner in TM. rewrite term_S. cbn [pp_inner].
    set (op := operand (parse_node_fuel rule_operators k span) (parse_path_fuel rule_operators k span) span).
    assert (CPRE : Forall clean pre).
    { eapply Forall_impl; [|exact PRE]. intros q [Q|Q]; apply clean_plain; rewrite Q; reflexivity. }
    assert (DI : forall q, In q core -> depth q <= k).
    { intros q I. assert (depth q < depth (mkPPair R_term s a b (pre ++ core ++ post))) by
        (apply depth_inner, in_or_app; right; apply in_or_app; auto). lia. }
    assert (TC : Forall tame core) by (apply Forall_app in TM; destruct TM as (_ & TM); apply Forall_app in TM; apply TM).
    assert (CORE : exists r, good r core (fun n => ms_path (n_span n) = ms_path span /\ den_core (ms_path span) core n) /\
      term_loop op (core ++ post) pre [] None =
      let? e := r in term_loop op post pre [] (Some e)).
    { destruct S as [p T|o e c O E C|s' a' b' l names args SG A].
      - exists (match op p with Some r => r | None => Panic end).
        assert (G : forall r, op p = Some r ->
          good r [p] (fun n => exists e, den_terminal p e /\ n = mkNode e (at_pair (ms_path span) p)) ->
          good r [p] (fun n => ms_path (n_span n) = ms_path span /\ den_core (ms_path span) [p] n)).
        { intros r _ [(n & -> & (e & D & ->) & C)|(e & -> & F)]; [left|right; eauto].
          eexists. split; [reflexivity|]. split; [split; [reflexivity|constructor; exact D]|exact C]. }
        destruct T as [t a' b' l I|t a' b' l I|t a' b' pounds q1 content q2 PP Q1 _ QC Q2|t a' b' p1 o p2 S1 O S2];
          (split; [|cbn [app term_loop pp_rule]; match goal with |- context [op ?q] => destruct (op q) end; reflexivity]).
        + apply G; [reflexivity|]. apply string_good, I.
        + apply G; [reflexivity|]. apply insensitive_good, I.
        + assert (pounds = []) as ->.
          { inversion TC as [|? ? T1 _]; subst. inversion T1 as [p' _ F _]; subst. specialize (F eq_refl). cbn [pp_inner] in F.
            destruct pounds as [|q r]; [reflexivity|]. cbn [app] in F. inversion F; inversion PP as [|? ? PQ ?]; subst. exfalso. apply H1, PQ. }
          apply G; [reflexivity|]. apply raw_good; assumption.
        + apply G; [reflexivity|]. apply range_good; try assumption. inversion TC; assumption.
      - exists (parse_node_fuel rule_operators k span e). assert (R : pp_rule e = R_expression) by (destruct E; reflexivity).
        assert (CO : clean o) by (apply clean_plain; rewrite O; reflexivity).
        assert (CC : clean c) by (apply clean_plain; rewrite C; reflexivity).
        split.
        + destruct (IHn e) as [(n & EN & (P & D) & CL)|(x & EN & F)]; [apply DI; cbn; auto|inversion TC as [|? ? _ TC1]; inversion TC1; assumption|exact E| |]; rewrite EN.
          * left. eexists. split; [reflexivity|]. split; [split; [exact P|constructor; assumption]|]. inversion CL; subst. cleans.
          * right. eexists. split; [reflexivity|]. apply (fault_in_app_r [o] [e; c]); [cleans|]. apply (fault_in_app_l [e] [c]), F.
        + cbn [app]. rewrite term_loop_open by exact O.
          rewrite (term_loop_expression op e _ _ _ _ (parse_node_fuel rule_operators k span e) R) by (unfold op, operand; rewrite R; reflexivity).
          destruct (parse_node_fuel rule_operators k span e) as [[n|x]| |]; try reflexivity. cbn [pbind obind]. rewrite term_loop_close by exact C. reflexivity.
      - exists (parse_path_fuel rule_operators k span (mkPPair R_path s' a' b' (l ++ args))). split.
        + apply IHp with (names := names); [apply DI; cbn; auto|inversion TC; assumption|exact SG|exact A].
        + reflexivity. }
    rewrite term_loop_pre by exact PRE. cbn [app]. destruct CORE as (r & G & ->).
    destruct G as [(n & -> & (P & D) & CC)|(e & -> & F)]; cbn [pbind obind].
    + rewrite term_loop_post by exact POST. cbn [app pbind obind ok or_panic].
      destruct (fold_postfix_good (ms_path span) post POST core n P (Den_core _ _ _ D)) as [(n' & -> & (P' & D') & CP)|(e & -> & F)]; cbn [pbind obind].
      * destruct (fold_prefix_den (ms_path span) pre PRE (core ++ post) n' P' (Den_no_prefix _ _ _ D')) as (n'' & -> & P'' & D'').
        cbn [obind]. left. eexists. split; [reflexivity|]. split; [split; [exact P''|constructor; exact D'']|].
        constructor; [|constructor]. apply clean_parts; [reflexivity|discriminate|]. apply Forall_app. split; [exact CPRE|]. apply Forall_app. auto.
      * right. eexists. split; [reflexivity|]. apply fault_in_one, fault_parts; [reflexivity|].
        apply fault_in_app_r; [exact CPRE|]. apply fault_in_app_r; assumption.
    + right. eexists. split; [reflexivity|]. apply fault_in_one, fault_parts; [reflexivity|].
      apply fault_in_app_r; [exact CPRE|]. apply fault_in_app_l, F.
  - intros s a b l names args p L TM SG A. apply tame_inner in TM. rewrite path_S. unfold parse_path_raw. cbn [pp_inner p].
    assert (CL : Forall clean l).
    { clear -SG. induction SG as [q Q|q q' l ns Q Q' SG IH]; cleans; apply clean_plain; rewrite ?Q, ?Q'; reflexivity. }
    assert (SEG : path_segments (length (l ++ args)) (l ++ args) = (names, args)).
    { apply path_segments_spec; [exact SG| |rewrite app_length; lia]. destruct A; cbn [pp_rule]; auto; split; discriminate. }
    rewrite SEG. pose proof (IH (from_pest span p)) as (IHn' & _ & _). change (ms_path (from_pest span p)) with (ms_path span) in IHn'.
    destruct A as [|s' a' b' o la c O S C|s' a' b' o la c x y O B C].
    + cbn [pbind obind ok]. left. eexists. split; [reflexivity|]. split; [split; [reflexivity|]|].
      * apply (Den_path _ s a b l names [] None SG). constructor.
      * constructor; [|constructor]. apply clean_parts; [reflexivity|discriminate|]. apply Forall_app. auto.
    + cbn [pp_rule pp_inner next obind].
      assert (CO : clean o) by (apply clean_plain; rewrite O; reflexivity).
      assert (CC : clean c) by (apply clean_plain; rewrite C; reflexivity).
      destruct (call_args_good (ms_path span) (parse_node_fuel rule_operators k (from_pest span p)) c C _ la (le_n _) S)
        with (fuel := Datatypes.S (length (la ++ [c]))) as [(ns & E & D & CA)|(e & E & F)].
      { assert (TA : Forall tame (la ++ [c])).
        { apply Forall_app in TM. destruct TM as (_ & TM). inversion TM as [|? ? T1 _]; subst. apply tame_inner in T1. inversion T1; assumption. }
        intros e I E. apply IHn'; [|apply (proj1 (Forall_forall _ _) TA), in_or_app; auto|exact E].
        assert (depth e < depth (mkPPair R_call s' a' b' (o :: la ++ [c]))) by (apply depth_inner; right; apply in_or_app; auto).
        assert (depth (mkPPair R_call s' a' b' (o :: la ++ [c])) < depth p) by (apply depth_inner, in_or_app; cbn; auto). lia. }
      { rewrite app_length. lia. }
      * fold p. rewrite E. cbn [pbind obind ok]. left. eexists. split; [reflexivity|]. split; [split; [reflexivity|]|].
        -- apply (Den_path _ s a b l names _ (Some (PCall ns)) SG). constructor; assumption.
        -- constructor; [|constructor]. apply clean_parts; [reflexivity|discriminate|]. apply Forall_app. split; [exact CL|].
           cleans. apply clean_parts; [reflexivity|discriminate|]. cleans. apply Forall_app. split; [exact CA|cleans].
      * fold p. rewrite E. cbn [pbind obind ok]. right. eexists. split; [reflexivity|]. apply fault_in_one, fault_parts; [reflexivity|].
        apply fault_in_app_r; [exact CL|]. apply fault_in_one, fault_parts; [reflexivity|].
        apply (fault_in_app_r [o] (la ++ [c])); [cleans|]. apply fault_in_app_l, F.
    + cbn [pp_rule pp_inner].
      assert (CO : clean o) by (apply clean_plain; rewrite O; reflexivity).
      assert (CC : clean c) by (apply clean_plain; rewrite C; reflexivity).
      destruct (bounds_good Z parse_isize integer_pair (fun z => isize_low <= z <= isize_high)%Z o la c x y) as [(r & E & (-> & Qx & Qy) & CA)|(e & E & F)];
        [exact integer_good|intros q v (Q & _); auto|exact B|auto| |]; rewrite E; cbn [pbind obind ok].
      * left. eexists. split; [reflexivity|]. split; [split; [reflexivity|]|].
        -- apply (Den_path _ s a b l names _ (Some (PSlice (mkRange x y))) SG). constructor; assumption.
        -- constructor; [|constructor]. apply clean_parts; [reflexivity|discriminate|]. apply Forall_app. split; [exact CL|].
           cleans. apply clean_parts; [reflexivity|discriminate|]. cleans. apply Forall_app. split; [exact CA|cleans].
      * right. eexists. split; [reflexivity|]. apply fault_in_one, fault_parts; [reflexivity|].
        apply fault_in_app_r; [exact CL|]. apply fault_in_one, fault_parts; [reflexivity|].
        apply (fault_in_app_r [o] (la ++ [c])); [cleans|]. apply fault_in_app_l, F.
Qed.
