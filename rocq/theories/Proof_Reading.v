(** The reader of grammar files: everything that has a meaning is read as that, and the reported fault
    is determined. *)
From Coq Require Import String List NArith ZArith Arith Bool Lia ZifyBool ZifyNat ZifyN.
From Verif Require Import Model_Text Model_Message Model_Unescape Model_Meta Model_Grammar
  Spec_Unescape Spec_Message Spec_Grammar Proof_Text Proof_Message Proof_Unescape Proof_Literal Proof_Pratt Proof_Grammar.
Import ListNotations.
Open Scope list_scope.

(** Faults are determined. *)
Lemma own_fault_det : forall p e e', own_fault p e -> own_fault p e' -> e = e'.
Proof.
  intros p e e' F F'. destruct F; inversion F'; subst; try reflexivity; try discriminate.
  - match goal with Q : _ ++ [_] = _ ++ [_] |- _ => apply app_inj_tail in Q; destruct Q as (-> & _) end.
    match goal with C : counts ?l _ _, C' : counts ?l _ _ |- _ => destruct (counts_unique _ _ _ _ _ C C') as (U1 & U2) end.
    injection U1 as <-. injection U2 as <-.
    match goal with C : extent ?l _ _, C' : extent ?l _ _ |- _ => destruct (extent_unique _ _ _ _ _ C C') as (<- & <-) end.
    do 2 f_equal. f_equal; [eapply notation_unique; eassumption|]. do 2 f_equal. eapply notation_unique; eassumption.
  - match goal with Q : _ ++ [_] = _ ++ [_] |- _ => apply app_inj_tail in Q; destruct Q as (-> & _) end.
    match goal with C : counts ?l _ _, C' : counts ?l _ _ |- _ => destruct (counts_unique _ _ _ _ _ C C') as (U1 & U2) end.
    injection U2 as ->. match goal with M : forall m, _ = Some m -> _ |- _ => specialize (M _ (eq_sym U1)) end. lia.
  - match goal with Q : _ ++ [_] = _ ++ [_] |- _ => apply app_inj_tail in Q; destruct Q as (-> & _) end.
    match goal with C : counts ?l _ _, C' : counts ?l _ _ |- _ => destruct (counts_unique _ _ _ _ _ C C') as (U1 & U2) end.
    injection U2 as <-. match goal with M : forall m, _ = Some m -> _ |- _ => specialize (M _ U1) end. lia.
  - match goal with Q : _ ++ [_] = _ ++ [_] |- _ => apply app_inj_tail in Q; destruct Q as (-> & _) end.
    match goal with C : extent ?l _ _, C' : extent ?l _ _ |- _ => destruct (extent_unique _ _ _ _ _ C C') as (<- & <-) end.
    reflexivity.
Qed.
Lemma clean_no_fault : forall p e, first_fault p e -> clean p -> False.
Proof.
  induction 1 as [p l q l' e P F Q IH|p e P F]; intro C; inversion C as [p' CP N]; subst.
  - apply IH. rewrite P in CP. apply Forall_app in CP. destruct CP as (_ & CP). inversion CP; assumption.
  - apply (N e F).
Qed.
Lemma split_unique : forall (A : Type) (P Q : A -> Prop) l x l' m y m',
  (forall a, P a -> Q a -> False) -> Forall P l -> Q x -> Forall P m -> Q y -> l ++ x :: l' = m ++ y :: m' -> x = y.
Proof.
  intros A P Q l x l' m. revert l. induction m as [|b m IH]; intros [|a l] y m' N FL X FM Y E; cbn [app] in E;
    injection E as E1 E2.
  - exact E1.
  - exfalso. subst a. inversion FL as [|? ? PA _]; subst. exact (N _ PA Y).
  - exfalso. subst b. inversion FM as [|? ? PB _]; subst. exact (N _ PB X).
  - inversion FL as [|? ? _ FL']; inversion FM as [|? ? _ FM']; subst. exact (IH l y m' N FL' X FM' Y E2).
Qed.
Lemma first_fault_det : forall p e, first_fault p e -> forall e', first_fault p e' -> e = e'.
Proof.
  induction 1 as [p l q l' e P F Q IH|p e P F]; intros e' F'; inversion F' as [p' m y m' e'' P' M Y|p' e'' P' O]; subst.
  - assert (q = y) as ->.
    { apply (split_unique _ clean (fun q => exists e, first_fault q e) l q l' m y m');
        [intros a C (x & X); eapply clean_no_fault; eassumption|exact F|exists e; exact Q|exact M|exists e'; exact Y|].
      rewrite <- P, <- P'. reflexivity. }
    apply IH, Y.
  - exfalso. rewrite P in P'. apply Forall_app in P'. destruct P' as (_ & P'). inversion P' as [|? ? C _]; subst. exact (clean_no_fault _ _ Q C).
  - exfalso. rewrite P' in P. apply Forall_app in P. destruct P as (_ & P). inversion P as [|? ? C _]; subst. exact (clean_no_fault _ _ Y C).
  - eapply own_fault_det; eassumption.
Qed.

(** Everything that has a meaning is read as that. *)
Scheme den_expression_mut := Induction for den_expression Sort Prop
with den_choices_mut := Induction for den_choices Sort Prop
with den_sequence_mut := Induction for den_sequence Sort Prop
with den_term_mut := Induction for den_term Sort Prop
with den_prefixed_mut := Induction for den_prefixed Sort Prop
with den_postfixed_mut := Induction for den_postfixed Sort Prop
with den_core_mut := Induction for den_core Sort Prop
with den_args_mut := Induction for den_args Sort Prop
with den_actuals_mut := Induction for den_actuals Sort Prop.

Section Reading.
Variable path : text.
Definition reads_node (p : ppair) (n : parse_node) : Prop := forall k span,
  ms_path span = path -> depth p <= k -> tame p ->
  parse_node_fuel rule_operators k span p = Ret (inl n) /\ ms_path (n_span n) = path.
Definition reads_term (p : ppair) (n : parse_node) : Prop := pp_rule p = R_term /\ forall k span,
  ms_path span = path -> depth p <= k -> tame p ->
  parse_term_fuel rule_operators k span p = Ret (inl n) /\ ms_path (n_span n) = path.
Definition small (k : nat) (l : list ppair) : Prop := Forall (fun p => depth p <= k) l /\ Forall tame l.
Definition reads_choices (l : list ppair) (n : parse_node) : Prop :=
  (exists t r, l = t :: r /\ pp_rule t = R_term) /\ forall k span,
  ms_path span = path -> small k l ->
  ev_alts (parse_node + perror) (parse_term_fuel rule_operators k span) parse_infix l (inl n) /\ ms_path (n_span n) = path.
Definition reads_sequence (l : list ppair) (n : parse_node) : Prop :=
  (exists t r, l = t :: r /\ pp_rule t = R_term) /\ forall k span,
  ms_path span = path -> small k l ->
  ev_seq (parse_node + perror) (parse_term_fuel rule_operators k span) parse_infix l (inl n) /\ ms_path (n_span n) = path.
Definition op_of (k : nat) (span : mspan) : ppair -> option (presult parse_node) :=
  operand (parse_node_fuel rule_operators k span) (parse_path_fuel rule_operators k span) span.
Definition reads_core (l : list ppair) (n : parse_node) : Prop := forall k span,
  ms_path span = path -> small k l -> ms_path (n_span n) = path /\
  forall post x y, term_loop (op_of k span) (l ++ post) x y None = term_loop (op_of k span) post x y (Some n).
Definition good_postfix (p : ppair) : Prop := exists n e, den_postfix p n e.
Definition reads_postfixed (l : list ppair) (n : parse_node) : Prop :=
  exists core post m, l = core ++ post /\ Forall good_postfix post /\ reads_core core m /\
    (ms_path (n_span m) = path -> fold_postfix post m = Ret (inl n) /\ ms_path (n_span n) = path).
Definition reads_prefixed (l : list ppair) (n : parse_node) : Prop :=
  exists pre rest m, l = pre ++ rest /\ Forall (fun p => prefix_op (pp_rule p)) pre /\ reads_postfixed rest m /\
    (ms_path (n_span m) = path -> fold_prefix pre m = Ret n /\ ms_path (n_span n) = path).
Definition reads_args (l : list ppair) (x : option path_args) : Prop := forall k span names segs,
  ms_path span = path -> Forall (fun p => depth p <= Datatypes.S k) l -> Forall tame l -> segments segs names -> forall s a b,
  parse_path_raw (parse_node_fuel rule_operators k span) (mkPPair R_path s a b (segs ++ l)) = Ret (inl (names, x)).
Definition reads_actuals (l : list ppair) (ns : list parse_node) : Prop := forall k span c fuel,
  ms_path span = path -> small k l -> pp_rule c = R_closing_paren -> length l < fuel ->
  call_args (parse_node_fuel rule_operators k span) fuel (l ++ [c]) = Ret (inl ns).

Lemma small_app : forall k l l', small k (l ++ l') -> small k l /\ small k l'.
Proof. intros k l l' (A & B). apply Forall_app in A. apply Forall_app in B. unfold small. tauto. Qed.
Lemma small_one : forall k p, small k [p] -> depth p <= k /\ tame p.
Proof. intros k p (A & B). inversion A; inversion B; auto. Qed.
Lemma small_inner : forall k r s a b l, depth (mkPPair r s a b l) <= S k -> tame (mkPPair r s a b l) -> small k l.
Proof.
  intros k r s a b l D T. split; [|eapply tame_inner; exact T]. apply Forall_forall. intros q I.
  pose proof (depth_inner r s a b l q I). lia.
Qed.

(** The bounds of repetitions and slices. *)
Lemma pair_to_number : forall p n, number_pair p n -> (n <= usize_limit)%N -> pair_to parse_usize p = Ret (inl n).
Proof.
  intros p n (_ & N) L. unfold pair_to. rewrite (parse_usize_notation _ n N).
  replace (n <=? usize_limit)%N with true by lia. reflexivity.
Qed.
Lemma pair_to_integer : forall p z, integer_pair p z -> (isize_low <= z <= isize_high)%Z -> pair_to parse_isize p = Ret (inl z).
Proof.
  intros p n (_ & N) L. unfold pair_to. rewrite (parse_isize_integer _ n N).
  replace ((isize_low <=? n) && (n <=? isize_high))%Z with true by lia. reflexivity.
Qed.
Lemma number_clean : forall p n, number_pair p n -> (n <= usize_limit)%N -> clean p.
Proof.
  intros p n N L. destruct (number_good p n N) as [(_ & C & _)|(e & E & _)]; [exact C|].
  rewrite (pair_to_number p n N L) in E. discriminate.
Qed.
Lemma integer_clean : forall p z, integer_pair p z -> (isize_low <= z <= isize_high)%Z -> clean p.
Proof.
  intros p n N L. destruct (integer_good p n N) as [(_ & C & _)|(e & E & _)]; [exact C|].
  rewrite (pair_to_integer p n N L) in E. discriminate.
Qed.
Lemma fault_not_clean : forall l e, fault_in l e -> Forall clean l -> False.
Proof.
  intros l e (l1 & q & l2 & -> & _ & F) C. apply Forall_app in C. destruct C as (_ & C). inversion C as [|? ? CQ _]; subst.
  exact (clean_no_fault _ _ F CQ).
Qed.
Lemma counts_read : forall o l c x y, counts l x y -> pp_rule c = R_closing_brace ->
  each (fun n => n <= usize_limit)%N x -> each (fun n => n <= usize_limit)%N y ->
  parse_range parse_usize (o :: l ++ [c]) = Ret (inl (mkRange x y)).
Proof.
  intros o l c x y C CL X Y. destruct (counts_good o l c x y C CL) as [(r & E & (-> & _ & _) & _)|(e & E & F)]; [exact E|].
  exfalso. apply (fault_not_clean _ _ F).
  destruct C as [l x y B|p n N].
  - destruct B as [p q r u v N1 O N2|p q u N1 O|q r v O N2|q O]; cleans;
      first [apply clean_plain; rewrite O; reflexivity
            |eapply number_clean; [eassumption|first [apply X; reflexivity|apply Y; reflexivity]]].
  - cleans. eapply number_clean; [eassumption|apply X; reflexivity].
Qed.
Lemma slice_read : forall o l c x y, bounds integer_pair l x y -> pp_rule c = R_closing_brack ->
  in_isize x -> in_isize y -> parse_range parse_isize (o :: l ++ [c]) = Ret (inl (mkRange x y)).
Proof.
  intros o l c x y B CL X Y.
  destruct (bounds_good Z parse_isize integer_pair (fun z => isize_low <= z <= isize_high)%Z o l c x y) as [(r & E & (-> & _ & _) & _)|(e & E & F)];
    [exact integer_good|intros q v (Q & _); auto|exact B|auto|exact E|].
  exfalso. apply (fault_not_clean _ _ F).
  destruct B as [p q r u v N1 O N2|p q u N1 O|q r v O N2|q O]; cleans;
    first [apply clean_plain; rewrite O; reflexivity
          |eapply integer_clean; [eassumption|first [apply X; reflexivity|apply Y; reflexivity]]].
Qed.

Lemma postfix_read : forall p n e, den_postfix p n e -> ms_path (n_span n) = path ->
  parse_postfix p n = Ret (inl (mkNode e (between path (from_of n) (pp_end p)))).
Proof.
  intros p n e D P.
  assert (W : span_with_end (n_span n) (pp_end p) = between path (from_of n) (pp_end p)) by
    (unfold span_with_end, between; rewrite P; reflexivity).
  unfold parse_postfix. destruct D as [p f n S|s a b o l c x y n C (S1 & S2 & S3) CL].
  - inversion S; rewrite W; reflexivity.
  - cbn [pp_rule]. unfold parse_bounded_repeat. cbn [pp_inner].
    rewrite (counts_read o l c x y C CL); [|exact S1|intros m M; apply S2; exact M]. cbn [pbind obind r_start r_end].
    destruct y as [[|y]|]; [specialize (S2 _ eq_refl); lia| |].
    + destruct x as [x|]; [|rewrite W; reflexivity].
      replace (N.pos y <? x)%N with false by (specialize (S3 _ _ eq_refl eq_refl); lia). cbn [pbind obind ok]. rewrite W. reflexivity.
    + destruct x; cbn [pbind obind ok]; rewrite W; reflexivity.
Qed.
Lemma fold_postfix_app : forall l p n m, fold_postfix l n = Ret (inl m) -> fold_postfix (l ++ [p]) n = parse_postfix p m.
Proof.
  induction l as [|q l IH]; intros p n m E; cbn [app fold_postfix] in *.
  - injection E as <-. destruct (parse_postfix p n) as [[|]| |]; reflexivity.
  - destruct (parse_postfix q n) as [[x|x]| |]; cbn [pbind obind] in *; try discriminate. apply IH, E.
Qed.
Lemma term_loop_good_post : forall op post x y e, Forall good_postfix post ->
  term_loop op post x y e = ok (x, y ++ post, e).
Proof.
  intros op post. induction post as [|p post IH]; intros x y e F; [rewrite app_nil_r; reflexivity|].
  inversion F as [|? ? (n & d & D) F']; subst. cbn [term_loop].
  assert (E : term_loop op post x (y ++ [p]) e = ok (x, y ++ p :: post, e)) by
    (rewrite IH by exact F'; rewrite <- app_assoc; reflexivity).
  destruct D as [p f n S|]; [|exact E]. inversion S; exact E.
Qed.

Lemma terminal_read : forall span p e, ms_path span = path -> tame p -> den_terminal p e ->
  forall node path', operand node path' span p = Some (Ret (inl (mkNode e (at_pair path p)))).
Proof.
  intros span p e P T D node path'. unfold operand.
  assert (FP : from_pest span p = at_pair path p) by (unfold from_pest, span_start_end, at_pair; rewrite P; reflexivity).
  destruct D as [s r a b l D|s r a b l D|s a b pounds q1 content q2 F Q1 QC|s a b p1 c1 o p2 c2 D1 D2]; cbn [pp_rule]; f_equal.
  - unfold parse_string. cbn [pp_str]. sliced [34%N] s 34%N. unfold unescape_or. rewrite (unescape_documented s r D).
    cbn [obind pbind ok]. rewrite FP. reflexivity.
  - unfold parse_insensitive_string. cbn [pp_str]. sliced [105%N; 34%N] s 34%N. unfold unescape_or. rewrite (unescape_documented s r D).
    cbn [obind pbind ok]. rewrite FP. reflexivity.
  - assert (pounds = []) as ->.
    { inversion T as [p' _ N _]; subst. specialize (N eq_refl). cbn [pp_inner] in N.
      destruct pounds as [|q l]; [reflexivity|]. inversion F; inversion N; subst. contradiction. }
    cbn [app] in *. rewrite <- FP. reflexivity.
  - apply tame_inner in T. inversion T as [|? ? T1 T']; subst. inversion T' as [|? ? _ T'']; subst. inversion T'' as [|? ? T2 _]; subst.
    assert (CH : forall q c, tame q -> den_character q c -> char_content q = Ret (inl [c])).
    { intros q c TQ D. destruct D as [s' c a' b' l' M]. unfold char_content. cbn [pp_str]. sliced [39%N] s' 39%N. unfold unescape_or.
      rewrite (unescape_char_meaning s' c M); [reflexivity|]. inversion TQ as [q' N _ _]; subst. specialize (N eq_refl).
      intros ->. apply N. reflexivity. }
    unfold parse_char_range. cbn [pp_inner next obind]. rewrite (CH p1 c1 T1 D1). cbn [pbind obind]. rewrite (CH p2 c2 T2 D2).
    cbn [pbind obind hd_error or_panic]. rewrite FP. reflexivity.
Qed.

Lemma den_read : forall p n, den_expression path p n -> reads_node p n.
Proof.
  apply (den_expression_mut path
    (fun p n _ => reads_node p n) (fun l n _ => reads_choices l n) (fun l n _ => reads_sequence l n)
    (fun p n _ => reads_term p n) (fun l n _ => reads_prefixed l n) (fun l n _ => reads_postfixed l n)
    (fun l n _ => reads_core l n) (fun l x _ => reads_args l x) (fun l ns _ => reads_actuals l ns)).
  - (* expression *)
    intros s a b lead l n LEAD _ ((t & r & EL & RT) & IH) [|k] span P D T; [pose proof (depth_pos (mkPPair R_expression s a b (lead ++ l))); lia|].
    pose proof (small_inner _ _ _ _ _ _ D T) as SM. apply small_app in SM. destruct SM as (_ & SM).
    destruct (IH k span P SM) as (E & PN). split; [|exact PN]. rewrite node_S. cbn [pp_inner].
    assert (SK : skip R_choice_operator (lead ++ l) = l).
    { destruct LEAD as [-> | (o & -> & O)]; cbn [app skip]; [subst l; cbn [skip]; rewrite RT; reflexivity|rewrite O; reflexivity]. }
    rewrite SK. exact (pratt_alts _ _ _ _ _ E).
  - (* one alternative *)
    intros l n _ (HD & IH). split; [exact HD|]. intros k span P SM. destruct (IH k span P SM) as (E & PN). split; [constructor; exact E|exact PN].
  - (* choice *)
    intros l n o l' m _ ((t & r & EL & RT) & IH) O _ (_ & IH'). split; [subst l; cbn [app]; eauto|]. intros k span P SM.
    apply small_app in SM. destruct SM as (SM & SM'). apply (small_app k [o] l') in SM'. destruct SM' as (_ & SM').
    destruct (IH k span P SM) as (E & PN). destruct (IH' k span P SM') as (E' & PM). split; [|reflexivity].
    eapply Ea_more; [exact E|rewrite O; reflexivity|exact E'|]. unfold parse_infix. rewrite O. cbn [pbind obind].
    unfold span_union, between. rewrite PN. reflexivity.
  - (* one operand *)
    intros t n _ (R & IH). split; [eauto|]. intros k span P SM. apply small_one in SM. destruct (IH k span P) as (E & PN); [tauto|tauto|].
    split; [|exact PN]. constructor; [rewrite R; reflexivity|exact E].
  - (* sequence *)
    intros t n o tr l m _ (R & IH) O _ (_ & IH'). split; [eauto|]. intros k span P SM.
    apply (small_app k [t] (o :: l)) in SM. destruct SM as (SM & SM'). apply (small_app k [o] l) in SM'. destruct SM' as (_ & SM').
    apply small_one in SM. destruct (IH k span P) as (E & PN); [tauto|tauto|]. destruct (IH' k span P SM') as (E' & PM).
    split; [|reflexivity]. destruct (sequence_op_infix o tr O) as (_ & OP & I).
    eapply Es_more; [rewrite R; reflexivity|exact E|exact OP|exact E'|]. rewrite I. unfold ok, span_union, between. rewrite PN. reflexivity.
  - (* term *)
    intros s a b l n _ (pre & rest & m & -> & PRE & (core & post & m0 & -> & POST & CORE & FO) & FP). split; [reflexivity|].
    intros [|k] span P D T; [pose proof (depth_pos (mkPPair R_term s a b (pre ++ core ++ post))); lia|].
    pose proof (small_inner _ _ _ _ _ _ D T) as SM. apply small_app in SM. destruct SM as (_ & SM). apply small_app in SM. destruct SM as (SM & _).
    destruct (CORE k span P SM) as (P0 & TL). rewrite term_S. cbn [pp_inner]. rewrite term_loop_pre by exact PRE. cbn [app].
    destruct (FO P0) as (FO1 & P1). destruct (FP P1) as (FP1 & P2). split; [|exact P2].
    fold (op_of k span). rewrite TL, term_loop_good_post by exact POST. cbn [app pbind obind ok or_panic]. rewrite FO1. cbn [pbind obind]. rewrite FP1. reflexivity.
  - (* positive predicate *)
    intros p l n R _ (pre & rest & m & -> & PRE & PO & FP). exists (p :: pre), rest, m. split; [reflexivity|].
    split; [constructor; [left; exact R|exact PRE]|]. split; [exact PO|]. intro P. destruct (FP P) as (FP1 & P1). split; [|reflexivity].
    cbn [fold_prefix]. rewrite FP1. cbn [obind]. unfold parse_prefix. rewrite R. unfold span_with_start, between. rewrite P1. reflexivity.
  - (* negative predicate *)
    intros p l n R _ (pre & rest & m & -> & PRE & PO & FP). exists (p :: pre), rest, m. split; [reflexivity|].
    split; [constructor; [right; exact R|exact PRE]|]. split; [exact PO|]. intro P. destruct (FP P) as (FP1 & P1). split; [|reflexivity].
    cbn [fold_prefix]. rewrite FP1. cbn [obind]. unfold parse_prefix. rewrite R. unfold span_with_start, between. rewrite P1. reflexivity.
  - (* no prefix *)
    intros l n _ PO. exists [], l, n. split; [reflexivity|]. split; [constructor|]. split; [exact PO|]. intro P. split; [reflexivity|exact P].
  - (* postfix *)
    intros l n p e _ (core & post & m & -> & POST & CORE & FO) DP. exists core, (post ++ [p]), m. split; [apply app_assoc_reverse|].
    split; [apply Forall_app; split; [exact POST|constructor; [exists n, e; exact DP|constructor]]|]. split; [exact CORE|].
    intro P. destruct (FO P) as (FO1 & P1). split; [|reflexivity]. rewrite (fold_postfix_app post p m n FO1). apply postfix_read; assumption.
  - (* no postfix *)
    intros l n _ C. exists l, [], n. rewrite app_nil_r. split; [reflexivity|]. split; [constructor|]. split; [exact C|]. intro P. split; [reflexivity|exact P].
  - (* terminal *)
    intros p e D k span P SM. apply small_one in SM. split; [reflexivity|]. intros post x y. cbn [app].
    pose proof (terminal_read span p e P (proj2 SM) D (parse_node_fuel rule_operators k span) (parse_path_fuel rule_operators k span)) as E.
    fold (op_of k span) in E. cbn [term_loop]. rewrite E. destruct D; reflexivity.
  - (* parentheses *)
    intros o e c n O De IH C k span P SM. apply (small_app k [o] [e; c]) in SM. destruct SM as (_ & SM).
    apply (small_app k [e] [c]) in SM. destruct SM as (SM & _). apply small_one in SM. destruct (IH k span P) as (E & PN); [tauto|tauto|].
    split; [exact PN|]. intros post x y. assert (R : pp_rule e = R_expression) by (destruct De; reflexivity).
    cbn [app]. rewrite term_loop_open by exact O.
    rewrite (term_loop_expression (op_of k span) e _ _ _ _ (parse_node_fuel rule_operators k span e) R) by (unfold op_of, operand; rewrite R; reflexivity).
    rewrite E. cbn [pbind obind]. rewrite term_loop_close by exact C. reflexivity.
  - (* path *)
    intros s a b l names args x SG _ IH k span P SM. apply small_one in SM. destruct SM as (D & T). split; [reflexivity|].
    intros post u v. cbn [app term_loop pp_rule]. unfold op_of at 1, operand at 1. cbn [pp_rule].
    destruct k as [|k]; [pose proof (depth_pos (mkPPair R_path s a b (l ++ args))); lia|].
    rewrite path_S. pose proof (tame_inner _ _ _ _ _ T) as TA. apply Forall_app in TA. destruct TA as (_ & TA).
    rewrite (IH k (from_pest span (mkPPair R_path s a b (l ++ args))) names l P); [|eapply Forall_forall|exact TA|exact SG].
    + cbn [pbind obind ok]. unfold from_pest, span_start_end. cbn [pp_start pp_end]. rewrite P. reflexivity.
    + intros q I. pose proof (depth_inner R_path s a b (l ++ args) q (in_or_app _ _ _ (or_intror I))). lia.
  - (* no arguments *)
    intros k span names segs P _ _ SG s a b. unfold parse_path_raw. cbn [pp_inner].
    rewrite (path_segments_spec _ _ SG) by (auto; rewrite app_length; lia). reflexivity.
  - (* call *)
    intros s' a' b' o l c ns _ IH C k span names segs P D T SG s a b. unfold parse_path_raw. cbn [pp_inner].
    rewrite (path_segments_spec _ _ SG); [|cbn [pp_rule]; split; discriminate|rewrite app_length; lia].
    cbn [pp_rule pp_inner next obind]. inversion D as [|? ? D1 _]; inversion T as [|? ? T1 _]; subst.
    pose proof (small_inner _ _ _ _ _ _ D1 T1) as SM. apply (small_app k [o] (l ++ [c])) in SM. destruct SM as (_ & SM).
    apply small_app in SM. destruct SM as (SM & _). rewrite IH; [reflexivity|exact P|exact SM|exact C|rewrite app_length; lia].
  - (* slice *)
    intros s' a' b' o l c x y B X Y C k span names segs P D T SG s a b. unfold parse_path_raw. cbn [pp_inner].
    rewrite (path_segments_spec _ _ SG); [|cbn [pp_rule]; split; discriminate|rewrite app_length; lia].
    cbn [pp_rule pp_inner]. rewrite (slice_read o l c x y B C X Y). reflexivity.
  - (* no actual argument *)
    intros k span c fuel P SM C L. destruct fuel; [cbn in L; lia|]. cbn [app call_args]. rewrite C. reflexivity.
  - (* last actual argument *)
    intros e n De IH k span c fuel P SM C L. cbn [length] in L. destruct fuel as [|[|f]]; [lia|lia|].
    apply small_one in SM. destruct (IH k span P) as (E & _); [tauto|tauto|].
    assert (R : pp_rule e = R_expression) by (destruct De; reflexivity). remember (S f) as f1. cbn [app call_args]. rewrite R, E. cbn [pbind obind skip].
    rewrite C. subst f1. cbn [call_args]. change (grule_eqb R_closing_paren R_comma) with false. cbv iota. cbn [call_args]. rewrite C. reflexivity.
  - (* next actual argument *)
    intros e n q l ns De IH Q _ IH' k span c fuel P SM C L. cbn [length] in L. destruct fuel as [|f]; [lia|].
    apply (small_app k [e] (q :: l)) in SM. destruct SM as (SM & SM'). apply (small_app k [q] l) in SM'. destruct SM' as (_ & SM').
    apply small_one in SM. destruct (IH k span P) as (E & _); [tauto|tauto|].
    assert (R : pp_rule e = R_expression) by (destruct De; reflexivity). cbn [app call_args]. rewrite R, E. cbn [pbind obind skip].
    rewrite Q. change (grule_eqb R_comma R_comma) with true. cbv iota. rewrite (IH' k span c f P SM' C) by lia. reflexivity.
Qed.
End Reading.

(** The reader against the meaning. *)
Theorem parse_node_iff : forall span p n, syn_expression p -> tame p ->
  (parse_node_of rule_operators span p = Ret (inl n) <-> den_expression (ms_path span) p n).
Proof.
  intros span p n S T. split.
  - intro H. destruct (proj1 (main (Datatypes.S (depth p)) span) p) as [(m & E & (_ & D) & _)|(e & E & _)]; auto;
      unfold parse_node_of in H; rewrite E in H; [injection H as <-; exact D|discriminate].
  - intro D. apply (den_read (ms_path span) p n D); auto.
Qed.
Theorem parse_node_fault : forall span p e, syn_expression p -> tame p ->
  (parse_node_of rule_operators span p = Ret (inr e) <-> first_fault p e).
Proof.
  intros span p e S T.
  destruct (proj1 (main (Datatypes.S (depth p)) span) p) as [(m & E & (_ & D) & C)|(e' & E & F)]; auto; unfold parse_node_of; rewrite E; split; intro H.
  - discriminate.
  - exfalso. inversion C; subst. eapply clean_no_fault; eassumption.
  - injection H as <-. destruct F as (l & q & l' & Q & CL & F). destruct l as [|x l]; [injection Q as -> _; exact F|].
    destruct l; discriminate.
  - destruct F as (l & q & l' & Q & CL & F). destruct l as [|x l]; [injection Q as -> _|destruct l; discriminate].
    rewrite (first_fault_det _ _ H _ F). reflexivity.
Qed.
Theorem parse_node_total : forall span p, syn_expression p -> tame p -> exists r, parse_node_of rule_operators span p = Ret r.
Proof.
  intros span p S T. destruct (proj1 (main (Datatypes.S (depth p)) span) p) as [(m & E & _)|(e' & E & F)]; auto; eexists; exact E.
Qed.

(** White space around documentation. *)
Lemma is_whitespace_white : forall c, is_whitespace c = true <-> white c.
Proof.
  intro c. unfold is_whitespace, white. cbn [In]. split; intro H.
  - repeat (apply orb_prop in H; destruct H as [H|H]); lia.
  - repeat match goal with |- (_ || _) = true => apply orb_true_iff end. lia.
Qed.
Lemma skip_while_white : forall a s, Forall white a -> (forall c u, s = c :: u -> ~ white c) ->
  skip_while is_whitespace (a ++ s) = s.
Proof.
  induction a as [|x a IH]; intros s F N; cbn [app].
  - destruct s as [|c s]; [reflexivity|]. cbn [skip_while]. specialize (N c s eq_refl).
    destruct (is_whitespace c) eqn:E; [exfalso; apply N, is_whitespace_white, E|reflexivity].
  - inversion F; subst. cbn [skip_while]. rewrite (proj2 (is_whitespace_white x)) by assumption. apply IH; assumption.
Qed.
Lemma skip_while_split : forall s, exists a, s = a ++ skip_while is_whitespace s /\ Forall white a /\
  (forall c u, skip_while is_whitespace s = c :: u -> ~ white c).
Proof.
  induction s as [|c s (a & E & F & N)]; cbn [skip_while].
  - exists []. split; [reflexivity|]. split; [constructor|discriminate].
  - destruct (is_whitespace c) eqn:W.
    + exists (c :: a). cbn [app]. split; [f_equal; exact E|]. split; [constructor; [apply is_whitespace_white, W|exact F]|exact N].
    + exists []. split; [reflexivity|]. split; [constructor|]. intros d u Q. injection Q as <- _. intro X.
      apply is_whitespace_white in X. congruence.
Qed.
Lemma trim_spec : forall s t, trim s = t <-> trimmed s t.
Proof.
  intros s t. unfold trim. split.
  - intros <-. destruct (skip_while_split s) as (a & E & FA & NA).
    remember (skip_while is_whitespace s) as u eqn:U. clear U.
    destruct (skip_while_split (rev u)) as (b & E' & FB & NB). remember (skip_while is_whitespace (rev u)) as v eqn:V. clear V.
    assert (EU : u = rev v ++ rev b) by (rewrite <- rev_app_distr, <- E', rev_involutive; reflexivity).
    exists a, (rev b). split; [rewrite E, EU; reflexivity|]. split; [exact FA|]. split; [apply Forall_rev, FB|]. split.
    + intros c w Q. rewrite Q in EU. cbn [app] in EU. exact (NA _ _ EU).
    + intros c w Q. apply (f_equal (@rev char)) in Q. rewrite rev_involutive, rev_app_distr in Q. cbn [rev app] in Q.
      exact (NB _ _ Q).
  - intros (a & b & -> & FA & FB & NA & NB).
    assert (X : skip_while is_whitespace (a ++ t ++ b) = skip_while is_whitespace (t ++ b)).
    { induction FA as [|x a W FA IH]; cbn [app]; [reflexivity|]. cbn [skip_while].
      rewrite (proj2 (is_whitespace_white x) W). exact IH. }
    rewrite X. destruct t as [|c t].
    + cbn [app]. replace b with (b ++ []) by apply app_nil_r. rewrite (skip_while_white b []) by (auto; discriminate). reflexivity.
    + assert (Y : skip_while is_whitespace ((c :: t) ++ b) = (c :: t) ++ b).
      { apply (skip_while_white [] ((c :: t) ++ b)); [constructor|]. intros d u Q. injection Q as <- _. exact (NA c t eq_refl). }
      rewrite Y. rewrite rev_app_distr, skip_while_white; [apply rev_involutive|apply Forall_rev, FB|].
      intros d u Q. apply (f_equal (@rev char)) in Q. rewrite rev_involutive in Q. cbn [rev] in Q. exact (NB _ _ Q).
Qed.
Lemma doc_read : forall r p d, doc_pair r (lit "///") p d -> parse_rule_doc p = ok d.
Proof.
  intros r p d (_ & s & E & T). unfold parse_rule_doc. rewrite E.
  change 3 with (blen (lit "///")). rewrite get_from_app. cbn [or_panic obind]. apply trim_spec in T. rewrite T. reflexivity.
Qed.
Lemma grammar_doc_read : forall p d, doc_pair R_grammar_doc (lit "//!") p d -> parse_grammar_doc p = ok d.
Proof.
  intros p d (_ & s & E & T). unfold parse_grammar_doc. rewrite E.
  change 3 with (blen (lit "//!")). rewrite get_from_app. cbn [or_panic obind]. apply trim_spec in T. rewrite T. reflexivity.
Qed.
Lemma rule_docs_read : forall docs ds q rest, Forall2 (doc_pair R_rule_doc (lit "///")) docs ds -> pp_rule q <> R_rule_doc ->
  rule_docs (docs ++ q :: rest) = ok (ds, q :: rest).
Proof.
  intros docs ds q rest F N. induction F as [|p d docs ds P F IH]; cbn [app rule_docs].
  - destruct (grule_eqb_spec (pp_rule q) R_rule_doc); [contradiction|reflexivity].
  - rewrite (proj1 P). change (grule_eqb R_rule_doc R_rule_doc) with true. cbv iota. rewrite (doc_read _ _ _ P). cbn [pbind obind ok].
    rewrite IH. reflexivity.
Qed.
Lemma formals_filter : forall l ns c, formals l ns -> pp_rule c = R_closing_paren ->
  map pp_str (filter (fun p => grule_eqb (pp_rule p) R_identifier) (l ++ [c])) = ns.
Proof.
  intros l ns c F C. induction F as [|p P|p q l ns P Q F IH]; cbn [app filter map].
  - rewrite C. reflexivity.
  - rewrite P, C. reflexivity.
  - rewrite P, Q. change (grule_eqb R_identifier R_identifier) with true. change (grule_eqb R_comma R_identifier) with false.
    cbv iota. cbn [map]. rewrite IH. reflexivity.
Qed.

Ltac rule_tests := cbv zeta; repeat match goal with
  | |- context [grule_eqb ?a ?b] => let v := eval compute in (grule_eqb a b) in
      match v with true => idtac | false => idtac end; change (grule_eqb a b) with v end; cbv iota.
Theorem parse_rule_reads : forall path p ds name ns silent e, rule_syntax p ds name ns silent e ->
  parse_grammar_rule path p =
    (let? node := parse_node_of rule_operators (at_pair path p) e in
     ok (mkParseRule ds name ns (at_pair path p) node silent)).
Proof.
  intros path p ds name ns silent e R.
  destruct R as [s a b docs ds name args ns asg body silent e D N A ASG AI B].
  assert (NR : pp_rule name <> R_rule_doc) by (cbn [In] in N; intro Q; rewrite Q in N; intuition discriminate).
  unfold parse_grammar_rule. cbn [pp_inner pp_start pp_end]. rewrite (rule_docs_read _ _ _ _ D NR). cbn [pbind obind ok next].
  assert (BODY : forall args', map pp_str (filter (fun p => grule_eqb (pp_rule p) R_identifier) args') = ns ->
    (let! (p, rest) := next body in
     let silent := grule_eqb (pp_rule p) R_silent_modifier in
     let pairs := if silent then rest else body in
     let! (p, _) := next pairs in
     let has_braces := grule_eqb (pp_rule p) R_opening_brace in
     let pairs := if has_braces then skip R_opening_brace pairs else pairs in
     let! (expr, pairs) := next pairs in
     let? node := parse_node_of rule_operators (mkMSpan path a b) expr in
     ok (mkParseRule ds (pp_str name) (map pp_str (filter (fun p => grule_eqb (pp_rule p) R_identifier) args')) (mkMSpan path a b) node silent)) =
    (let? node := parse_node_of rule_operators (mkMSpan path a b) e in
     ok (mkParseRule ds (pp_str name) ns (mkMSpan path a b) node silent))).
  { intros args' ->. destruct B as [e E|o e c O E C|m l e M B].
    - cbn [next obind]. rewrite E. rule_tests. cbn [next obind]. rewrite E. rule_tests. reflexivity.
    - cbn [next obind]. rewrite O. rule_tests. cbn [next obind]. rewrite O. rule_tests. cbn [skip]. rewrite O. reflexivity.
    - cbn [next obind]. rewrite M. rule_tests. inversion B as [e' E|o e' c O E C|]; subst.
      + cbn [next obind]. rewrite E. rule_tests. reflexivity.
      + cbn [next obind]. rewrite O. rule_tests. cbn [skip]. rewrite O. reflexivity. }
  destruct A as [|s' a' b' o l c ns O F C].
  - cbn [app next obind]. rewrite AI. assert (SK : skip R_assignment_operator body = body).
    { destruct B as [e E|o e c O E C|m l e M B]; cbn [skip]; [rewrite E|rewrite O|rewrite M]; reflexivity. }
    rewrite SK. exact (BODY [] eq_refl).
  - cbn [app next obind pp_inner]. cbn [skip]. rewrite ASG. change (grule_eqb R_assignment_operator R_assignment_operator) with true. cbv iota.
    apply (BODY (o :: l ++ [c])). cbn [filter]. rewrite O. change (grule_eqb R_opening_paren R_identifier) with false. cbv iota.
    apply formals_filter; assumption.
Qed.

(** Character literals, including the bare quote character. *)
Lemma char_content_exact : forall s a b l, char_text s ->
  let p := mkPPair R_character (39%N :: s ++ [39%N]) a b l in
  (s = [34%N] /\ char_content p = Ret (inl [])) \/
  (s <> [34%N] /\ exists c, char_meaning s c /\ char_content p = Ret (inl [c])) \/
  (s <> [34%N] /\ (forall c, ~ char_meaning s c) /\ char_content p = Ret (inr (CustomError (lit "incorrect char literal") a b))).
Proof.
  intros s a b l T p. unfold char_content. cbn [pp_str p]. sliced [39%N] s 39%N. unfold unescape_or.
  destruct (list_eq_dec N.eq_dec s [34%N]) as [->|N]; [left; split; [reflexivity|vm_compute; reflexivity]|right].
  destruct (unescape_char s T N) as [(c & E & M)|(E & M)]; rewrite E; [left|right]; eauto.
Qed.
Lemma escape_det : forall e c c', escape hex e c -> escape hex e c' -> c = c'.
Proof.
  intros e c c' E E'. assert (F : forall c, escape hex e c -> unescape e = Ret (Some [c])).
  { intros d D. apply unescape_documented. rewrite <- (app_nil_r e). apply D_escape; [exact D|constructor]. }
  pose proof (F _ E) as A. pose proof (F _ E') as B. congruence.
Qed.
Lemma char_meaning_det : forall s c c', char_meaning s c -> char_meaning s c' -> c = c'.
Proof.
  intros s c c' M M'. destruct (list_eq_dec N.eq_dec s [34%N]) as [->|N].
  - assert (X : forall c, char_meaning [34%N] c -> c = 34%N).
    { intros d [E|(_ & Q)]; [inversion E|injection Q as <-; reflexivity]. }
    rewrite (X c M), (X c' M'). reflexivity.
  - pose proof (unescape_char_meaning _ _ M N). pose proof (unescape_char_meaning _ _ M' N). congruence.
Qed.
Lemma quote_meaning : char_meaning [34%N] 34%N.
Proof. right. split; [discriminate|reflexivity]. Qed.
Lemma quote_meaning_of : forall s, s = [34%N] -> char_meaning s 34%N.
Proof. intros s ->. exact quote_meaning. Qed.
