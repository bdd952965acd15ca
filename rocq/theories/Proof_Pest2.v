(** Proofs about the parser of grammar files: fuel, progress, termination, no panics. *)
From Coq Require Import String List NArith Arith Bool Lia.
From Verif Require Import Model_Text Model_Message Model_Meta Model_Pest2.
Import ListNotations.
Open Scope list_scope.

(** * Bodies of rules. *)
Definition body_of (r : qrule) : qexpr := match r with Loud r => loud_body r | Silent s => silent_body s end.
Definition inside_of (a : atomicity) (r : qrule) : atomicity :=
  match r with
  | Loud r => match loud_kind r with K_atomic => Atomic | K_compound => CompoundAtomic | _ => a end
  | Silent S_whitespace | Silent S_comment => Atomic
  | Silent _ => a
  end.
Definition makes (a : atomicity) (r : grule) : bool :=
  match loud_kind r with K_silent => false | K_compound => true | _ => pairing a end.
Definition wrap (a : atomicity) (r : qrule) (s s' : qstate) (ps : list ppair) : list ppair :=
  match r with
  | Loud r => if makes a r then [mkPPair r (taken s s') (q_pos s) (q_pos s') ps] else ps
  | Silent _ => ps
  end.
Lemma qthen_ret : forall o, qthen o (fun s ps => Ret (Some (s, ps))) = o.
Proof. intros [[(s, ps)|]| |]; reflexivity. Qed.
Lemma match_rule : forall k a r s,
  qmatch (S k) a (Q_rule r) s =
  qthen (qmatch k (inside_of a r) (body_of r) s) (fun s' ps => Ret (Some (s', wrap a r s s' ps))).
Proof.
  intros k a [r|r] s; cbn [qmatch body_of inside_of wrap]; [reflexivity|].
  rewrite qthen_ret. destruct r; reflexivity.
Qed.
Definition skip (k : nat) (a : atomicity) (s : qstate) : qresult :=
  if skips a then qmatch k Atomic skip_body s else Ret (Some (s, [])).

(** * Inversion. *)
Lemma then_some : forall o f s ps, qthen o f = Ret (Some (s, ps)) ->
  exists s1 p1, o = Ret (Some (s1, p1)) /\ f s1 p1 = Ret (Some (s, ps)).
Proof.
  intros o f s ps H. unfold qthen in H. destruct o as [[(s1, p1)|]| |]; cbn [obind] in H; try discriminate.
  exists s1, p1. split; [reflexivity|exact H].
Qed.
Lemma both_some : forall p o s ps, qboth p o = Ret (Some (s, ps)) -> exists q, o = Ret (Some (s, q)) /\ ps = p ++ q.
Proof.
  intros p o s ps H. apply then_some in H as (s1 & p1 & -> & H). injection H as <- <-. exists p1. split; reflexivity.
Qed.

(** * More fuel does not change results. *)
Definition le_out {A} (o o' : outcome A) : Prop := o = OutOfFuel \/ o = o'.
Lemma le_refl : forall A (o : outcome A), le_out o o.
Proof. intros. right. reflexivity. Qed.
Lemma bind_le : forall A B (o o' : outcome A) (f f' : A -> outcome B), le_out o o' -> (forall x, le_out (f x) (f' x)) ->
  le_out (obind o f) (obind o' f').
Proof. intros A B o o' f f' [->| ->] H; [left; reflexivity|]. destruct o'; cbn [obind]; [apply H|apply le_refl|apply le_refl]. Qed.
Lemma then_le : forall o o' f f', le_out o o' -> (forall s p, le_out (f s p) (f' s p)) -> le_out (qthen o f) (qthen o' f').
Proof. intros o o' f f' L H. apply bind_le; [exact L|]. intros [(s, p)|]; [apply H|apply le_refl]. Qed.
Lemma both_le : forall p o o', le_out o o' -> le_out (qboth p o) (qboth p o').
Proof. intros p o o' L. apply then_le; [exact L|]. intros. apply le_refl. Qed.
Lemma match_le1 : forall k a e s, le_out (qmatch k a e s) (qmatch (S k) a e s).
Proof.
  induction k as [|k IH]; intros a e s; [left; reflexivity|].
  assert (SK : forall s, le_out (skip k a s) (skip (S k) a s)).
  { intro s0. unfold skip. destruct (skips a); [apply IH|apply le_refl]. }
  unfold skip in SK.
  destruct e as [t|x y| | | |r|x y|x y|x|x|x|x|x|x| |];
    [apply le_refl|apply le_refl|apply le_refl|apply le_refl|apply le_refl|rewrite !match_rule| | | | | | | | |apply le_refl|apply le_refl];
    [|match goal with |- le_out ?l _ => cbn [qmatch] end..].
  - apply then_le; [apply IH|intros; apply le_refl].
  - apply then_le; [apply IH|]. intros s1 p1. apply then_le; [apply SK|]. intros s2 p2. apply both_le, IH.
  - apply bind_le; [apply IH|]. intros [z|]; [apply le_refl|apply IH].
  - apply bind_le; [apply IH|]. intros [z|]; apply le_refl.
  - apply bind_le; [apply IH|]. intros [(s1, p1)|]; [apply both_le, IH|apply le_refl].
  - apply bind_le; [apply then_le; [apply SK|intros; apply IH]|].
    intros [(s1, p1)|]; [apply both_le, IH|apply le_refl].
  - apply bind_le; [apply IH|]. intros [z|]; apply le_refl.
  - apply bind_le; [apply IH|]. intros [z|]; apply le_refl.
  - apply then_le; [apply IH|]. intros; apply le_refl.
Qed.
Lemma match_le : forall k k' a e s, k <= k' -> le_out (qmatch k a e s) (qmatch k' a e s).
Proof.
  intros k k' a e s L. induction L as [|k' L IH]; [apply le_refl|].
  destruct IH as [->|E]; [left; reflexivity|]. rewrite E. apply match_le1.
Qed.
Lemma match_mono : forall k k' a e s, k <= k' -> qmatch k a e s <> OutOfFuel -> qmatch k' a e s = qmatch k a e s.
Proof. intros k k' a e s L N. destruct (match_le k k' a e s L) as [E|E]; [contradiction|symmetry; exact E]. Qed.
Lemma match_same : forall k k' a e s r r', qmatch k a e s = Ret r -> qmatch k' a e s = Ret r' -> r = r'.
Proof.
  intros k k' a e s r r' A B. assert (Ret r = Ret r') as E by
    (rewrite <- A, <- B; destruct (Nat.le_ge_cases k k') as [L|L];
     [symmetry; apply match_mono; [exact L|rewrite A; discriminate]|apply match_mono; [exact L|rewrite B; discriminate]]).
  injection E as ->. reflexivity.
Qed.

(** * Matching moves forward over a part of the text. *)
Definition moved (s s' : qstate) (u : text) : Prop := q_rest s = u ++ q_rest s' /\ q_pos s' = q_pos s + blen u.
Lemma blen_app : forall a b, blen (a ++ b) = blen a + blen b.
Proof. induction a as [|c a IH]; intro b; cbn [app blen]; [reflexivity|]. rewrite IH. lia. Qed.
Lemma moved_refl : forall s, moved s s [].
Proof. intro s. split; [reflexivity|cbn [blen]; lia]. Qed.
Lemma moved_trans : forall s s1 s2 u v, moved s s1 u -> moved s1 s2 v -> moved s s2 (u ++ v).
Proof.
  intros s s1 s2 u v (A & B) (C & D). split; [rewrite A, C, app_assoc; reflexivity|rewrite D, B, blen_app; lia].
Qed.
Lemma taken_moved : forall s s' u, moved s s' u -> taken s s' = u.
Proof.
  intros s s' u (A & _). unfold taken. rewrite A, app_length.
  replace (length u + length (q_rest s') - length (q_rest s')) with (length u) by lia.
  rewrite firstn_app, firstn_all, Nat.sub_diag. cbn [firstn]. apply app_nil_r.
Qed.
Lemma strip_some : forall t s r, strip t s = Some r -> s = t ++ r.
Proof.
  induction t as [|c t IH]; intros s r H; cbn [strip] in H; [injection H as ->; reflexivity|].
  destruct s as [|d s]; [discriminate|]. destruct (N.eqb_spec c d) as [->|]; [|discriminate].
  cbn [app]. f_equal. apply IH, H.
Qed.
Lemma strip_app : forall t r, strip t (t ++ r) = Some r.
Proof. induction t as [|c t IH]; intro r; cbn [strip app]; [reflexivity|]. rewrite N.eqb_refl. apply IH. Qed.
Lemma eat_moved : forall t s s', eat t s = Some s' -> moved s s' t.
Proof.
  intros t s s' H. unfold eat in H. destruct (strip t (q_rest s)) as [r|] eqn:E; [|discriminate]. injection H as <-.
  split; [cbn [q_rest]; apply strip_some, E|reflexivity].
Qed.
Lemma eat_char_moved : forall f s s', eat_char f s = Some s' -> exists c, f c = true /\ moved s s' [c].
Proof.
  intros f s s' H. unfold eat_char in H. destruct (q_rest s) as [|c r] eqn:E; [discriminate|].
  destruct (f c) eqn:F; [|discriminate]. injection H as <-. exists c. split; [exact F|].
  split; cbn [q_rest q_pos app blen]; [exact E|lia].
Qed.
Lemma plain_some : forall o s ps, plain_match o = Ret (Some (s, ps)) -> o = Some s /\ ps = [].
Proof. intros [x|] s ps H; [|discriminate]. injection H as <- <-. split; reflexivity. Qed.

(** The possible ways to succeed. *)
Lemma seq_inv : forall k a x y s s' ps, qmatch (S k) a (Q_seq x y) s = Ret (Some (s', ps)) ->
  exists s1 s2 p1 p0 p2, qmatch k a x s = Ret (Some (s1, p1)) /\ skip k a s1 = Ret (Some (s2, p0)) /\
    qmatch k a y s2 = Ret (Some (s', p2)) /\ ps = p1 ++ p2.
Proof.
  intros k a x y s s' ps H. cbn [qmatch] in H. apply then_some in H as (s1 & p1 & X & H).
  apply then_some in H as (s2 & p0 & K & H). apply both_some in H as (p2 & Y & ->).
  exists s1, s2, p1, p0, p2. auto.
Qed.
Lemma choice_inv : forall k a x y s r, qmatch (S k) a (Q_choice x y) s = Ret r ->
  (exists t, r = Some t /\ qmatch k a x s = Ret (Some t)) \/ (qmatch k a x s = Ret None /\ qmatch k a y s = Ret r).
Proof.
  intros k a x y s r H. cbn [qmatch] in H. destruct (qmatch k a x s) as [[t|]| |]; cbn [obind] in H; try discriminate.
  - injection H as <-. left. exists t. split; reflexivity.
  - right. split; [reflexivity|exact H].
Qed.
Lemma opt_inv : forall k a x s t, qmatch (S k) a (Q_opt x) s = Ret (Some t) ->
  qmatch k a x s = Ret (Some t) \/ (qmatch k a x s = Ret None /\ t = (s, [])).
Proof.
  intros k a x s t H. cbn [qmatch] in H. destruct (qmatch k a x s) as [[u|]| |]; cbn [obind] in H; try discriminate;
    injection H as <-; [left|right; split]; reflexivity.
Qed.
Lemma rep_inv : forall k a x s s' ps, qmatch (S k) a (Q_rep x) s = Ret (Some (s', ps)) ->
  (qmatch k a x s = Ret None /\ s' = s /\ ps = []) \/
  (exists s1 p1 p2, qmatch k a x s = Ret (Some (s1, p1)) /\ qmatch k a (Q_more x) s1 = Ret (Some (s', p2)) /\ ps = p1 ++ p2).
Proof.
  intros k a x s s' ps H. cbn [qmatch] in H.
  destruct (qmatch k a x s) as [[(s1, p1)|]| |] eqn:E; cbn [obind] in H; try discriminate.
  - apply both_some in H as (p2 & H & ->). right. exists s1, p1, p2. auto.
  - injection H as <- <-. left. auto.
Qed.
Lemma more_inv : forall k a x s s' ps, qmatch (S k) a (Q_more x) s = Ret (Some (s', ps)) ->
  (s' = s /\ ps = []) \/
  (exists s0 p0 s1 p1 p2, skip k a s = Ret (Some (s0, p0)) /\ qmatch k a x s0 = Ret (Some (s1, p1)) /\
     qmatch k a (Q_more x) s1 = Ret (Some (s', p2)) /\ ps = p1 ++ p2).
Proof.
  intros k a x s s' ps H. cbn [qmatch] in H. fold (skip k a s) in H. unfold qthen in H at 1.
  destruct (skip k a s) as [[(s0, p0)|]| |] eqn:E; cbn [obind] in H; try discriminate.
  - destruct (qmatch k a x s0) as [[(s1, p1)|]| |] eqn:X; cbn [obind] in H; try discriminate.
    + apply both_some in H as (p2 & H & ->). right. exists s0, p0, s1, p1, p2. auto.
    + injection H as <- <-. left. auto.
  - injection H as <- <-. left. auto.
Qed.
Lemma not_inv : forall k a x s t, qmatch (S k) a (Q_not x) s = Ret (Some t) -> qmatch k a x s = Ret None /\ t = (s, []).
Proof.
  intros k a x s t H. cbn [qmatch] in H. destruct (qmatch k a x s) as [[u|]| |]; cbn [obind] in H; try discriminate.
  injection H as <-. split; reflexivity.
Qed.
Lemma and_inv : forall k a x s t, qmatch (S k) a (Q_and x) s = Ret (Some t) ->
  (exists u, qmatch k a x s = Ret (Some u)) /\ t = (s, []).
Proof.
  intros k a x s t H. cbn [qmatch] in H. destruct (qmatch k a x s) as [[u|]| |]; cbn [obind] in H; try discriminate.
  injection H as <-. split; [exists u|]; reflexivity.
Qed.
Lemma push_inv : forall k a x s s' ps, qmatch (S k) a (Q_push x) s = Ret (Some (s', ps)) ->
  exists s1, qmatch k a x s = Ret (Some (s1, ps)) /\ s' = mkQ (q_pos s1) (q_rest s1) (taken s s1 :: q_stack s1).
Proof.
  intros k a x s s' ps H. cbn [qmatch] in H. apply then_some in H as (s1 & p1 & X & H). injection H as <- <-.
  exists s1. auto.
Qed.
Lemma pop_inv : forall k a s s' ps, qmatch (S k) a Q_pop s = Ret (Some (s', ps)) ->
  exists t rest s1, q_stack s = t :: rest /\ eat t s = Some s1 /\ s' = mkQ (q_pos s1) (q_rest s1) rest /\ ps = [].
Proof.
  intros k a s s' ps H. cbn [qmatch] in H. destruct (q_stack s) as [|t rest]; [discriminate|].
  apply plain_some in H as (H & ->). destruct (eat t s) as [s1|] eqn:E; [|discriminate]. injection H as <-.
  exists t, rest, s1. auto.
Qed.
Lemma peek_inv : forall k a s s' ps, qmatch (S k) a Q_peek s = Ret (Some (s', ps)) ->
  exists t rest, q_stack s = t :: rest /\ eat t s = Some s' /\ ps = [].
Proof.
  intros k a s s' ps H. cbn [qmatch] in H. destruct (q_stack s) as [|t rest]; [discriminate|].
  apply plain_some in H as (H & ->). exists t, rest. auto.
Qed.

Lemma match_moved : forall k a e s s' ps, qmatch k a e s = Ret (Some (s', ps)) -> exists u, moved s s' u.
Proof.
  induction k as [|k IH]; intros a e s s' ps H; [discriminate|].
  assert (SK : forall s s' ps, skip k a s = Ret (Some (s', ps)) -> exists u, moved s s' u).
  { intros s0 s1 p E. unfold skip in E. destruct (skips a); [eapply IH, E|]. injection E as <- <-. exists []. apply moved_refl. }
  destruct e as [t|x y| | | |r|x y|x y|x|x|x|x|x|x| |].
  - apply plain_some in H as (H & _). exists t. apply eat_moved, H.
  - apply plain_some in H as (H & _). apply eat_char_moved in H as (c & _ & M). exists [c]. exact M.
  - apply plain_some in H as (H & _). apply eat_char_moved in H as (c & _ & M). exists [c]. exact M.
  - cbn [qmatch] in H. destruct (q_pos s =? 0); [|discriminate]. injection H as <- <-. exists []. apply moved_refl.
  - cbn [qmatch] in H. destruct (q_rest s); [|discriminate]. injection H as <- <-. exists []. apply moved_refl.
  - rewrite match_rule in H. apply then_some in H as (s1 & p1 & X & H). injection H as <- <-. eapply IH, X.
  - apply seq_inv in H as (s1 & s2 & p1 & p0 & p2 & X & K & Y & _). apply IH in X as (u & X). apply SK in K as (w & K).
    apply IH in Y as (v & Y). exists (u ++ w ++ v). eapply moved_trans; [exact X|]. eapply moved_trans; eassumption.
  - apply choice_inv in H as [(t & E & X)|(_ & Y)]; [injection E as <-; eapply IH, X|eapply IH, Y].
  - apply opt_inv in H as [X|(_ & E)]; [eapply IH, X|]. injection E as -> ->. exists []. apply moved_refl.
  - apply rep_inv in H as [(_ & -> & _)|(s1 & p1 & p2 & X & Y & _)]; [exists []; apply moved_refl|].
    apply IH in X as (u & X). apply IH in Y as (v & Y). exists (u ++ v). eapply moved_trans; eassumption.
  - apply more_inv in H as [(-> & _)|(s0 & p0 & s1 & p1 & p2 & K & X & Y & _)]; [exists []; apply moved_refl|].
    apply IH in X as (u & X). apply SK in K as (w & K). apply IH in Y as (v & Y). exists (w ++ u ++ v).
    eapply moved_trans; [exact K|]. eapply moved_trans; eassumption.
  - apply not_inv in H as (_ & E). injection E as -> ->. exists []. apply moved_refl.
  - apply and_inv in H as (_ & E). injection E as -> ->. exists []. apply moved_refl.
  - apply push_inv in H as (s1 & X & ->). apply IH in X as (u & A & B). exists u. split; assumption.
  - apply peek_inv in H as (t & rest & _ & E & _). exists t. apply eat_moved, E.
  - apply pop_inv in H as (t & rest & s1 & _ & E & -> & _). exists t. apply eat_moved in E as (A & B). split; assumption.
Qed.
Lemma match_shorter : forall k a e s s' ps, qmatch k a e s = Ret (Some (s', ps)) -> length (q_rest s') <= length (q_rest s).
Proof. intros k a e s s' ps H. apply match_moved in H as (u & A & _). rewrite A, app_length. lia. Qed.
Lemma skip_shorter : forall k a s s' ps, skip k a s = Ret (Some (s', ps)) -> length (q_rest s') <= length (q_rest s).
Proof.
  intros k a s s' ps H. unfold skip in H. destruct (skips a); [eapply match_shorter, H|]. injection H as <- <-. lia.
Qed.

(** * Expressions that consume something. *)
Section Levels.
Variable next : qexpr -> bool.
Fixpoint nullable_step (e : qexpr) : bool :=
  match e with
  | Q_str t => match t with [] => true | _ => false end
  | Q_chars _ _ | Q_any => false
  | Q_rule r => next (body_of r)
  | Q_seq x y => nullable_step x && nullable_step y
  | Q_choice x y => nullable_step x || nullable_step y
  | Q_push x => nullable_step x
  | _ => true
  end.
End Levels.
Fixpoint nullable (l : nat) (e : qexpr) : bool :=
  nullable_step (match l with 0 => fun _ => true | S l' => nullable l' end) e.
Lemma nullable_strict : forall k l a e s s' ps, nullable l e = false -> qmatch k a e s = Ret (Some (s', ps)) ->
  length (q_rest s') < length (q_rest s).
Proof.
  induction k as [|k IH]; intros l a e s s' ps N H; [discriminate|].
  assert (ST : forall x y, nullable_step (match l with 0 => fun _ => true | S l' => nullable l' end) x = y -> nullable l x = y).
  { intros x y E. destruct l; exact E. }
  destruct e as [t|x y| | | |r|x y|x y|x|x|x|x|x|x| |]; try (destruct l; discriminate N).
  - destruct t as [|c t]; [destruct l; discriminate N|]. apply plain_some in H as (H & _).
    apply eat_moved in H as (A & _). rewrite A. cbn [app length]. rewrite app_length. lia.
  - apply plain_some in H as (H & _). apply eat_char_moved in H as (c & _ & A & _). rewrite A. cbn [app length]. lia.
  - apply plain_some in H as (H & _). apply eat_char_moved in H as (c & _ & A & _). rewrite A. cbn [app length]. lia.
  - destruct l as [|l]; [discriminate N|]. rewrite match_rule in H. apply then_some in H as (s1 & p1 & X & H).
    injection H as <- <-. eapply (IH l); [exact N|exact X].
  - apply seq_inv in H as (s1 & s2 & p1 & p0 & p2 & X & K & Y & _). apply skip_shorter in K.
    assert (nullable l x && nullable l y = false) as N' by (destruct l; exact N).
    apply andb_false_iff in N' as [N'|N'].
    + specialize (IH _ _ _ _ _ _ N' X). apply match_shorter in Y. lia.
    + specialize (IH _ _ _ _ _ _ N' Y). apply match_shorter in X. lia.
  - assert (nullable l x || nullable l y = false) as N' by (destruct l; exact N). apply orb_false_iff in N' as (N1 & N2).
    apply choice_inv in H as [(t & E & X)|(_ & Y)]; [injection E as <-; eapply IH; [exact N1|exact X]|eapply IH; [exact N2|exact Y]].
  - apply push_inv in H as (s1 & X & ->). cbn [q_rest]. eapply (IH l a x); [destruct l; exact N|exact X].
Qed.

(** * Termination: how deeply the parts of an expression are nested before something is consumed. *)
Definition level : nat := 30.
Definition omax (a b : option nat) : option nat :=
  match a, b with Some x, Some y => Some (Nat.max x y) | _, _ => None end.
Section Depth.
Variable sk : nat.
Section Step.
Variable next : qexpr -> option nat.
Fixpoint depth_step (e : qexpr) : option nat :=
  match e with
  | Q_rule r => option_map S (next (body_of r))
  | Q_seq x y => option_map S (omax (depth_step x) (if nullable level x then omax (Some sk) (depth_step y) else Some 0))
  | Q_choice x y => option_map S (omax (depth_step x) (depth_step y))
  | Q_more x => option_map S (omax (Some sk) (depth_step x))
  | Q_opt x | Q_rep x | Q_not x | Q_and x | Q_push x => option_map S (depth_step x)
  | _ => Some 1
  end.
End Step.
Fixpoint depth (l : nat) (e : qexpr) : option nat :=
  depth_step (match l with 0 => fun _ => None | S l' => depth l' end) e.
Lemma depth_unfold : forall l e, depth l e = depth_step (match l with 0 => fun _ => None | S l' => depth l' end) e.
Proof. intros [|l] e; reflexivity. Qed.

(** All parts of an expression are nested moderately, and repetitions consume something in each round. *)
Definition within (e : qexpr) : bool := match depth level e with Some d => d <=? nesting | None => false end.
Fixpoint moderate (e : qexpr) : bool :=
  within e &&
  match e with
  | Q_seq x y | Q_choice x y => moderate x && moderate y
  | Q_rep x => within (Q_more x) && negb (nullable level x) && moderate x
  | Q_more x => negb (nullable level x) && moderate x
  | Q_opt x | Q_not x | Q_and x | Q_push x => moderate x
  | _ => true
  end.
Lemma moderate_within : forall e, moderate e = true -> exists d, depth level e = Some d /\ d <= nesting.
Proof.
  intros e M. assert (within e = true) as W by (destruct e; cbn [moderate] in M; apply andb_prop in M as (W & _); exact W).
  unfold within in W. destruct (depth level e) as [d|]; [|discriminate]. exists d. split; [reflexivity|]. apply Nat.leb_le, W.
Qed.

Variable mode : atomicity -> Prop.
Hypothesis mode_inside : forall a r, mode a -> mode (inside_of a r).
Hypothesis bodies : forall a r, mode a -> moderate (body_of r) = true.
Hypothesis sk_small : sk <= nesting.
Hypothesis sk_enough : forall a, mode a -> skips a = true -> forall s,
  qmatch (length (q_rest s) * nesting + sk) Atomic skip_body s <> OutOfFuel.

Lemma match_ends : forall n d l a e s k, mode a -> moderate e = true -> depth l e = Some d -> length (q_rest s) <= n ->
  n * nesting + d <= k -> qmatch k a e s <> OutOfFuel.
Proof.
  induction n as [n IHn] using lt_wf_ind. intro d. induction d as [d IHd] using lt_wf_ind.
  intros l a e s k Mo M D L K.
  assert (1 <= d) as D1.
  { destruct e; rewrite depth_unfold in D; cbn [depth_step] in D; try (injection D as <-; lia);
      match type of D with option_map S ?o = _ => destruct o; cbn [option_map] in D; [injection D as <-; lia|discriminate D] end. }
  destruct k as [|k]; [lia|].
  assert (N1 : forall m, 1 <= n -> m <= nesting -> (n - 1) * nesting + m <= k).
  { intros m N1 L1. destruct n as [|n']; [lia|]. replace (S n' - 1) with n' by lia. cbn [Nat.mul] in K. lia. }
  assert (SK : forall s0 m, length (q_rest s0) <= m -> m * nesting + sk <= k -> skip k a s0 <> OutOfFuel).
  { intros s0 m L0 K0. unfold skip. destruct (skips a) eqn:E; [|discriminate].
    assert (length (q_rest s0) * nesting + sk <= k) as K1 by nia.
    rewrite (match_mono _ _ _ _ _ K1 (sk_enough a Mo E s0)). apply sk_enough with (1 := Mo), E. }
  assert (SUB : forall x d' s0, depth l x = Some d' -> d' < d -> moderate x = true -> length (q_rest s0) <= n -> qmatch k a x s0 <> OutOfFuel).
  { intros x d' s0 D' Ld Mx Ls. eapply (IHd d' Ld l); try eassumption. lia. }
  assert (LATER : forall x s0, moderate x = true -> length (q_rest s0) < length (q_rest s) -> qmatch k a x s0 <> OutOfFuel).
  { intros x s0 Mx Ls. destruct (moderate_within x Mx) as (d' & D' & W). eapply (IHn (n - 1)); try eassumption; try lia. apply N1; lia. }
  assert (SKL : forall s0, length (q_rest s0) < length (q_rest s) -> skip k a s0 <> OutOfFuel).
  { intros s0 Ls. apply SK with (m := n - 1); [lia|]. apply N1; lia. }
  rewrite depth_unfold in D.
  destruct e as [t|x y| | | |r|x y|x y|x|x|x|x|x|x| |].
  - cbn [qmatch]. unfold plain_match. discriminate.
  - cbn [qmatch]. unfold plain_match. discriminate.
  - cbn [qmatch]. unfold plain_match. discriminate.
  - cbn [qmatch]. discriminate.
  - cbn [qmatch]. discriminate.
  - cbn [depth_step] in D. destruct l as [|l]; [discriminate|]. destruct (depth l (body_of r)) as [d'|] eqn:D'; [|discriminate].
    injection D as <-. rewrite match_rule.
    assert (qmatch k (inside_of a r) (body_of r) s <> OutOfFuel) as T.
    { eapply (IHd d' ltac:(lia) l); [apply mode_inside, Mo|apply (bodies a), Mo|exact D'|exact L|lia]. }
    unfold qthen. destruct (qmatch k (inside_of a r) (body_of r) s) as [[(s1, p1)|]| |]; cbn [obind]; try discriminate. contradiction.
  - cbn [depth_step] in D. rewrite <- !depth_unfold in D. cbn [moderate] in M. apply andb_prop in M as (_ & M). apply andb_prop in M as (Mx & My).
    destruct (depth l x) as [dx|] eqn:Dx; [|discriminate].
    cbn [qmatch]. fold (skip k a). unfold qthen at 1.
    destruct (qmatch k a x s) as [[(s1, p1)|]| |] eqn:X; cbn [obind]; try discriminate.
    + destruct (nullable level x) eqn:Nx.
      * destruct (depth l y) as [dy|] eqn:Dy; [|discriminate]. cbn [omax option_map] in D. injection D as <-.
        pose proof (match_shorter _ _ _ _ _ _ X) as L1.
        assert (skip k a s1 <> OutOfFuel) as T by (apply (SK s1 n); lia).
        unfold qthen at 1. fold (skip k a s1). destruct (skip k a s1) as [[(s2, p2)|]| |] eqn:E; cbn [obind]; try discriminate; [|contradiction].
        pose proof (skip_shorter _ _ _ _ _ E) as L2.
        assert (qmatch k a y s2 <> OutOfFuel) as T2 by (apply (SUB y dy); try assumption; lia).
        unfold qboth, qthen. destruct (qmatch k a y s2) as [[(s3, p3)|]| |]; cbn [obind]; try discriminate. contradiction.
      * pose proof (nullable_strict _ _ _ _ _ _ _ Nx X) as L1.
        unfold qthen at 1. fold (skip k a s1). destruct (skip k a s1) as [[(s2, p2)|]| |] eqn:E; cbn [obind]; try discriminate; [|exact (fun _ => SKL s1 L1 E)].
        pose proof (skip_shorter _ _ _ _ _ E) as L2.
        assert (qmatch k a y s2 <> OutOfFuel) as T2 by (apply LATER; [assumption|lia]).
        unfold qboth, qthen. destruct (qmatch k a y s2) as [[(s3, p3)|]| |]; cbn [obind]; try discriminate. contradiction.
    + exfalso. apply (SUB x dx s); try assumption.
      destruct (nullable level x); [destruct (depth l y); [|discriminate]|]; cbn [omax option_map] in D; injection D as <-; lia.
  - cbn [depth_step] in D. rewrite <- !depth_unfold in D. cbn [moderate] in M. apply andb_prop in M as (_ & M). apply andb_prop in M as (Mx & My).
    destruct (depth l x) as [dx|] eqn:Dx; [|discriminate]. destruct (depth l y) as [dy|] eqn:Dy; [|discriminate].
    cbn [omax option_map] in D. injection D as <-. cbn [qmatch].
    assert (qmatch k a x s <> OutOfFuel) as T1 by (apply (SUB x dx); try assumption; lia).
    assert (qmatch k a y s <> OutOfFuel) as T2 by (apply (SUB y dy); try assumption; lia).
    destruct (qmatch k a x s) as [[t|]| |]; cbn [obind]; try discriminate; assumption.
  - cbn [depth_step] in D. rewrite <- !depth_unfold in D. cbn [moderate] in M. apply andb_prop in M as (_ & Mx).
    destruct (depth l x) as [dx|] eqn:Dx; [|discriminate]. injection D as <-. cbn [qmatch].
    assert (qmatch k a x s <> OutOfFuel) as T1 by (apply (SUB x dx); try assumption; lia).
    destruct (qmatch k a x s) as [[t|]| |]; cbn [obind]; try discriminate; assumption.
  - cbn [depth_step] in D. rewrite <- !depth_unfold in D. cbn [moderate] in M. apply andb_prop in M as (_ & M). apply andb_prop in M as (M & Mx).
    apply andb_prop in M as (W & Nx). apply negb_true_iff in Nx.
    destruct (depth l x) as [dx|] eqn:Dx; [|discriminate]. injection D as <-. cbn [qmatch].
    assert (qmatch k a x s <> OutOfFuel) as T1 by (apply (SUB x dx); try assumption; lia).
    destruct (qmatch k a x s) as [[(s1, p1)|]| |] eqn:X; cbn [obind]; try discriminate; [|assumption].
    pose proof (nullable_strict _ _ _ _ _ _ _ Nx X) as L1.
    assert (qmatch k a (Q_more x) s1 <> OutOfFuel) as T2.
    { apply LATER; [|exact L1]. cbn [moderate]. rewrite W, Nx, Mx. reflexivity. }
    unfold qboth, qthen. destruct (qmatch k a (Q_more x) s1) as [[(s3, p3)|]| |]; cbn [obind]; try discriminate. contradiction.
  - pose proof M as MM. cbn [depth_step] in D. rewrite <- !depth_unfold in D. cbn [moderate] in M. apply andb_prop in M as (_ & M). apply andb_prop in M as (Nx & Mx).
    apply negb_true_iff in Nx.
    destruct (depth l x) as [dx|] eqn:Dx; [|discriminate]. cbn [omax option_map] in D. injection D as <-. cbn [qmatch]. fold (skip k a s).
    assert (skip k a s <> OutOfFuel) as T by (apply (SK s n); lia).
    unfold qthen at 1. destruct (skip k a s) as [[(s0, p0)|]| |] eqn:E; cbn [obind]; try discriminate; [|contradiction].
    pose proof (skip_shorter _ _ _ _ _ E) as L0.
    assert (qmatch k a x s0 <> OutOfFuel) as T1 by (apply (SUB x dx); try assumption; lia).
    destruct (qmatch k a x s0) as [[(s1, p1)|]| |] eqn:X; cbn [obind]; try discriminate; [|assumption].
    pose proof (nullable_strict _ _ _ _ _ _ _ Nx X) as L1.
    assert (qmatch k a (Q_more x) s1 <> OutOfFuel) as T2 by (apply LATER; [exact MM|lia]).
    unfold qboth, qthen. destruct (qmatch k a (Q_more x) s1) as [[(s3, p3)|]| |]; cbn [obind]; try discriminate. contradiction.
  - cbn [depth_step] in D. rewrite <- !depth_unfold in D. cbn [moderate] in M. apply andb_prop in M as (_ & Mx).
    destruct (depth l x) as [dx|] eqn:Dx; [|discriminate]. injection D as <-. cbn [qmatch].
    assert (qmatch k a x s <> OutOfFuel) as T1 by (apply (SUB x dx); try assumption; lia).
    destruct (qmatch k a x s) as [[t|]| |]; cbn [obind]; try discriminate; assumption.
  - cbn [depth_step] in D. rewrite <- !depth_unfold in D. cbn [moderate] in M. apply andb_prop in M as (_ & Mx).
    destruct (depth l x) as [dx|] eqn:Dx; [|discriminate]. injection D as <-. cbn [qmatch].
    assert (qmatch k a x s <> OutOfFuel) as T1 by (apply (SUB x dx); try assumption; lia).
    destruct (qmatch k a x s) as [[t|]| |]; cbn [obind]; try discriminate; assumption.
  - cbn [depth_step] in D. rewrite <- !depth_unfold in D. cbn [moderate] in M. apply andb_prop in M as (_ & Mx).
    destruct (depth l x) as [dx|] eqn:Dx; [|discriminate]. injection D as <-. cbn [qmatch].
    assert (qmatch k a x s <> OutOfFuel) as T1 by (apply (SUB x dx); try assumption; lia).
    unfold qthen. destruct (qmatch k a x s) as [[(s1, p1)|]| |]; cbn [obind]; try discriminate; assumption.
  - cbn [qmatch]. destruct (q_stack s); unfold plain_match; discriminate.
  - cbn [qmatch]. destruct (q_stack s); unfold plain_match; discriminate.
Qed.
End Depth.

(** * The grammar of grammar files. *)
Definition all_srules : list srule :=
  [S_grammar_rules; S_node; S_terminal; S_overridable_operator; S_prefix_operator; S_infix_operator;
   S_postfix_operator; S_alpha; S_alpha_num; S_newline; S_whitespace; S_block_comment; S_comment].
Definition all_qrules : list qrule := map Loud all_grules ++ map Silent all_srules.
Lemma all_qrules_in : forall r, In r all_qrules.
Proof.
  intros [r|r]; apply in_or_app; [left|right]; apply in_map; destruct r; cbn [all_grules all_srules In]; tauto.
Qed.
Lemma every_rule : forall f : qrule -> bool, forallb f all_qrules = true -> forall r, f r = true.
Proof. intros f H r. rewrite forallb_forall in H. apply H, all_qrules_in. Qed.

Definition skip_depth : nat := 8.
Lemma moderate_bodies : forall r, moderate skip_depth (body_of r) = true.
Proof. apply (every_rule (fun r => moderate skip_depth (body_of r))). vm_compute. reflexivity. Qed.
Lemma moderate_bodies0 : forall r, moderate 0 (body_of r) = true.
Proof. apply (every_rule (fun r => moderate 0 (body_of r))). vm_compute. reflexivity. Qed.
Lemma skip_ends : forall s, qmatch (length (q_rest s) * nesting + skip_depth) Atomic skip_body s <> OutOfFuel.
Proof.
  intro s. apply (match_ends 0 (fun a => skips a = false)) with (n := length (q_rest s)) (d := skip_depth) (l := level).
  - intros a r H. destruct r as [r|r]; cbn [inside_of]; [destruct (loud_kind r)|destruct r]; (exact H || reflexivity).
  - intros a r _. apply moderate_bodies0.
  - apply Nat.le_0_l.
  - intros a H H'. rewrite H in H'. discriminate.
  - reflexivity.
  - vm_compute. reflexivity.
  - vm_compute. reflexivity.
  - apply le_n.
  - apply le_n.
Qed.
Lemma rule_ends : forall a r s k, S (length (q_rest s)) * nesting <= k -> qmatch k a (Q_rule r) s <> OutOfFuel.
Proof.
  intros a r s k K. assert (exists d, depth skip_depth level (Q_rule r) = Some d /\ d <= nesting) as (d & D & L).
  { apply (moderate_within skip_depth). apply (every_rule (fun r => moderate skip_depth (Q_rule r))). vm_compute. reflexivity. }
  apply (match_ends skip_depth (fun _ => True)) with (n := length (q_rest s)) (d := d) (l := level).
  - trivial.
  - intros. apply moderate_bodies.
  - vm_compute. lia.
  - intros. apply skip_ends.
  - exact I.
  - apply (every_rule (fun r => moderate skip_depth (Q_rule r))). vm_compute. reflexivity.
  - exact D.
  - apply le_n.
  - cbn [Nat.mul] in K. lia.
Qed.

(** * The stack is never too short. *)
Definition needs (r : qrule) : nat := match r with Loud R_inner_raw_str => 1 | _ => 0 end.
Fixpoint after (n : nat) (e : qexpr) : option nat :=
  match e with
  | Q_rule r => if needs r <=? n then Some n else None
  | Q_seq x y => match after n x with Some m => after m y | None => None end
  | Q_choice x y =>
      match after n x, after n y with Some m, Some m' => if m =? m' then Some m else None | _, _ => None end
  | Q_opt x | Q_rep x | Q_more x => match after n x with Some m => if m =? n then Some n else None | None => None end
  | Q_not x | Q_and x => match after n x with Some _ => Some n | None => None end
  | Q_push x => match after n x with Some m => Some (S m) | None => None end
  | Q_peek => match n with 0 => None | _ => Some n end
  | Q_pop => match n with 0 => None | S m => Some m end
  | _ => Some n
  end.
Lemma after_bodies : forall r, after (needs r) (body_of r) = Some (needs r).
Proof.
  intro r. assert ((match after (needs r) (body_of r) with Some m => m =? needs r | None => false end) = true) as H.
  { apply (every_rule (fun r => match after (needs r) (body_of r) with Some m => m =? needs r | None => false end)). vm_compute. reflexivity. }
  destruct (after (needs r) (body_of r)) as [m|]; [|discriminate]. apply Nat.eqb_eq in H as ->. reflexivity.
Qed.
(** What a match does to the stack, and that it does not panic: it replaces the top [n] by [m] texts. *)
Definition kept (m : nat) (bottom : list text) (o : qresult) : Prop :=
  o <> Panic /\ forall s' ps, o = Ret (Some (s', ps)) -> exists top, q_stack s' = top ++ bottom /\ length top = m.
Lemma eat_stack : forall t s s', eat t s = Some s' -> q_stack s' = q_stack s.
Proof. intros t s s' H. unfold eat in H. destruct (strip t (q_rest s)); [|discriminate]. injection H as <-. reflexivity. Qed.
Lemma eat_char_stack : forall t s s', eat_char t s = Some s' -> q_stack s' = q_stack s.
Proof.
  intros t s s' H. unfold eat_char in H. destruct (q_rest s) as [|c r]; [discriminate|]. destruct (t c); [|discriminate].
  injection H as <-. reflexivity.
Qed.
Lemma match_kept : forall k n m a e s top bottom, after n e = Some m -> q_stack s = top ++ bottom -> length top = n ->
  kept m bottom (qmatch k a e s).
Proof.
  induction k as [|k IH]; intros n m a e s top bottom A S L; [split; [discriminate|intros; discriminate]|].
  assert (SK : forall s, kept 0 (q_stack s) (skip k a s)).
  { intro s0. unfold skip. destruct (skips a); [apply (IH 0 0 Atomic skip_body s0 []); reflexivity|]. split; [discriminate|].
    intros s' ps E. injection E as <- <-. exists []. split; reflexivity. }
  assert (SKS : forall s0 s1 ps, skip k a s0 = Ret (Some (s1, ps)) -> q_stack s1 = q_stack s0).
  { intros s0 s1 ps E. destruct (SK s0) as (_ & H). destruct (H _ _ E) as (t & -> & Lt). destruct t; [reflexivity|discriminate]. }
  destruct e as [t|x y| | | |r|x y|x y|x|x|x|x|x|x| |]; cbn [after] in A.
  - injection A as <-. split; [discriminate|]. intros s' ps H. apply plain_some in H as (H & _). apply eat_stack in H as ->. exists top. auto.
  - injection A as <-. split; [discriminate|]. intros s' ps H. apply plain_some in H as (H & _). apply eat_char_stack in H as ->. exists top. auto.
  - injection A as <-. split; [discriminate|]. intros s' ps H. apply plain_some in H as (H & _). apply eat_char_stack in H as ->. exists top. auto.
  - injection A as <-. cbn [qmatch]. split; [discriminate|]. intros s' ps H. destruct (q_pos s =? 0); [|discriminate]. injection H as <- <-. exists top. auto.
  - injection A as <-. cbn [qmatch]. split; [discriminate|]. intros s' ps H. destruct (q_rest s); [|discriminate]. injection H as <- <-. exists top. auto.
  - destruct (Nat.leb_spec (needs r) n) as [N|]; [|discriminate]. injection A as <-. rewrite match_rule.
    destruct (IH (needs r) (needs r) (inside_of a r) (body_of r) s (firstn (needs r) top) (skipn (needs r) top ++ bottom) (after_bodies r)) as (P & H).
    { rewrite app_assoc, firstn_skipn. exact S. }
    { rewrite firstn_length. lia. }
    split.
    + unfold qthen. destruct (qmatch k (inside_of a r) (body_of r) s) as [[(s1, p1)|]| |]; cbn [obind]; try discriminate. contradiction.
    + intros s' ps E. apply then_some in E as (s1 & p1 & X & E). injection E as <- <-. destruct (H _ _ X) as (t & T & Lt).
      exists (t ++ skipn (needs r) top). split; [rewrite <- app_assoc; exact T|]. rewrite app_length, skipn_length. lia.
  - destruct (after n x) as [n1|] eqn:Ax; [|discriminate]. destruct (IH n n1 a x s top bottom Ax S L) as (P & H). split.
    + cbn [qmatch]. unfold qthen at 1. destruct (qmatch k a x s) as [[(s1, p1)|]| |] eqn:X; cbn [obind]; try discriminate; [|contradiction].
      destruct (H _ _ eq_refl) as (t1 & T1 & L1). fold (skip k a s1). destruct (SK s1) as (P1 & _). unfold qthen at 1.
      destruct (skip k a s1) as [[(s2, p2)|]| |] eqn:E; cbn [obind]; try discriminate; [|contradiction]. apply SKS in E.
      destruct (IH n1 m a y s2 t1 bottom A ltac:(congruence) L1) as (P2 & _). unfold qboth, qthen.
      destruct (qmatch k a y s2) as [[(s3, p3)|]| |]; cbn [obind]; try discriminate. contradiction.
    + intros s' ps E. apply seq_inv in E as (s1 & s2 & p1 & p0 & p2 & X & K & Y & _). destruct (H _ _ X) as (t1 & T1 & L1).
      apply SKS in K. destruct (IH n1 m a y s2 t1 bottom A ltac:(congruence) L1) as (_ & H2). exact (H2 _ _ Y).
  - destruct (after n x) as [n1|] eqn:Ax; [|discriminate]. destruct (after n y) as [n2|] eqn:Ay; [|discriminate].
    destruct (Nat.eqb_spec n1 n2) as [->|]; [|discriminate]. injection A as <-.
    destruct (IH n n2 a x s top bottom Ax S L) as (P & H). destruct (IH n n2 a y s top bottom Ay S L) as (P2 & H2). split.
    + cbn [qmatch]. destruct (qmatch k a x s) as [[t|]| |]; cbn [obind]; try discriminate; assumption.
    + intros s' ps E. apply choice_inv in E as [(t & E & X)|(_ & Y)]; [injection E as <-; apply (H _ _ X)|apply (H2 _ _ Y)].
  - destruct (after n x) as [n1|] eqn:Ax; [|discriminate]. destruct (Nat.eqb_spec n1 n) as [->|]; [|discriminate]. injection A as <-.
    destruct (IH n n a x s top bottom Ax S L) as (P & H). split.
    + cbn [qmatch]. destruct (qmatch k a x s) as [[t|]| |]; cbn [obind]; try discriminate; assumption.
    + intros s' ps E. apply opt_inv in E as [X|(_ & E)]; [apply (H _ _ X)|]. injection E as -> ->. exists top. auto.
  - destruct (after n x) as [n1|] eqn:Ax; [|discriminate]. destruct (Nat.eqb_spec n1 n) as [->|]; [|discriminate]. injection A as <-.
    assert (after n (Q_more x) = Some n) as Am by (cbn [after]; rewrite Ax, Nat.eqb_refl; reflexivity).
    destruct (IH n n a x s top bottom Ax S L) as (P & H). split.
    + cbn [qmatch]. destruct (qmatch k a x s) as [[(s1, p1)|]| |] eqn:X; cbn [obind]; try discriminate; [|assumption].
      destruct (H _ _ eq_refl) as (t1 & T1 & L1). destruct (IH n n a (Q_more x) s1 t1 bottom Am T1 L1) as (P2 & _). unfold qboth, qthen.
      destruct (qmatch k a (Q_more x) s1) as [[(s3, p3)|]| |]; cbn [obind]; try discriminate. contradiction.
    + intros s' ps E. apply rep_inv in E as [(_ & -> & _)|(s1 & p1 & p2 & X & Y & _)]; [exists top; auto|].
      destruct (H _ _ X) as (t1 & T1 & L1). destruct (IH n n a (Q_more x) s1 t1 bottom Am T1 L1) as (_ & H2). exact (H2 _ _ Y).
  - pose proof A as Am. change (after n (Q_more x) = Some m) in Am.
    destruct (after n x) as [n1|] eqn:Ax; [|discriminate]. destruct (Nat.eqb_spec n1 n) as [->|]; [|discriminate]. injection A as <-.
    destruct (SK s) as (P0 & _). split.
    + cbn [qmatch]. fold (skip k a s). unfold qthen at 1. destruct (skip k a s) as [[(s0, p0)|]| |] eqn:E; cbn [obind]; try discriminate; [|contradiction].
      apply SKS in E. destruct (IH n n a x s0 top bottom Ax ltac:(congruence) L) as (P & H).
      destruct (qmatch k a x s0) as [[(s1, p1)|]| |] eqn:X; cbn [obind]; try discriminate; [|assumption].
      destruct (H _ _ eq_refl) as (t1 & T1 & L1). destruct (IH n n a (Q_more x) s1 t1 bottom Am T1 L1) as (P2 & _). unfold qboth, qthen.
      destruct (qmatch k a (Q_more x) s1) as [[(s3, p3)|]| |]; cbn [obind]; try discriminate. contradiction.
    + intros s' ps E. apply more_inv in E as [(-> & _)|(s0 & p0 & s1 & p1 & p2 & K & X & Y & _)]; [exists top; auto|]. apply SKS in K.
      destruct (IH n n a x s0 top bottom Ax ltac:(congruence) L) as (P & H). destruct (H _ _ X) as (t1 & T1 & L1).
      destruct (IH n n a (Q_more x) s1 t1 bottom Am T1 L1) as (_ & H2). exact (H2 _ _ Y).
  - destruct (after n x) as [n1|] eqn:Ax; [|discriminate]. injection A as <-. destruct (IH n n1 a x s top bottom Ax S L) as (P & _). split.
    + cbn [qmatch]. destruct (qmatch k a x s) as [[t|]| |]; cbn [obind]; try discriminate; assumption.
    + intros s' ps E. apply not_inv in E as (_ & E). injection E as -> ->. exists top. auto.
  - destruct (after n x) as [n1|] eqn:Ax; [|discriminate]. injection A as <-. destruct (IH n n1 a x s top bottom Ax S L) as (P & _). split.
    + cbn [qmatch]. destruct (qmatch k a x s) as [[t|]| |]; cbn [obind]; try discriminate; assumption.
    + intros s' ps E. apply and_inv in E as (_ & E). injection E as -> ->. exists top. auto.
  - destruct (after n x) as [n1|] eqn:Ax; [|discriminate]. injection A as <-. destruct (IH n n1 a x s top bottom Ax S L) as (P & H). split.
    + cbn [qmatch]. unfold qthen. destruct (qmatch k a x s) as [[(s1, p1)|]| |]; cbn [obind]; try discriminate; assumption.
    + intros s' ps E. apply push_inv in E as (s1 & X & ->). cbn [q_stack]. destruct (H _ _ X) as (t1 & -> & L1).
      exists (taken s s1 :: t1). split; [reflexivity|cbn [length]; lia].
  - destruct n as [|n]; [discriminate|]. injection A as <-. destruct top as [|t top]; [discriminate|]. split.
    + cbn [qmatch]. rewrite S. discriminate.
    + intros s' ps E. apply peek_inv in E as (t' & rest & _ & E & _). apply eat_stack in E as ->. exists (t :: top). auto.
  - destruct n as [|n]; [discriminate|]. injection A as <-. destruct top as [|t top]; [discriminate|]. split.
    + cbn [qmatch]. rewrite S. discriminate.
    + intros s' ps E. apply pop_inv in E as (t' & rest & s1 & E & _ & -> & _). cbn [q_stack]. rewrite S in E. injection E as <- <-.
      exists top. split; [reflexivity|]. injection L as L. exact L.
Qed.
Lemma skip_stack : forall k a s s' ps, skip k a s = Ret (Some (s', ps)) -> q_stack s' = q_stack s.
Proof.
  intros k a s s' ps E. unfold skip in E. destruct (skips a); [|injection E as <- <-; reflexivity].
  destruct (match_kept k 0 0 Atomic skip_body s [] (q_stack s)) as (_ & H); try reflexivity.
  destruct (H _ _ E) as (t & -> & L). destruct t; [reflexivity|discriminate].
Qed.

(** The parser always answers. *)
Lemma parse_answers : forall r input k, needs r = 0 -> enough input <= k -> exists o, qparse k r input = Ret o.
Proof.
  intros r input k N K. unfold qparse.
  pose proof (rule_ends NonAtomic r (mkQ 0 input []) k K) as T.
  destruct (match_kept k 0 0 NonAtomic (Q_rule r) (mkQ 0 input []) [] []) as (P & _); [cbn [after]; rewrite N; reflexivity|reflexivity|reflexivity|].
  destruct (qmatch k NonAtomic (Q_rule r) (mkQ 0 input [])) as [o| |]; [exists o; reflexivity|contradiction|contradiction].
Qed.
Lemma parse_mono : forall r input k0 k o, k0 <= k -> qparse k0 r input = Ret o -> qparse k r input = Ret o.
Proof.
  intros r input k0 k o K E. unfold qparse in *. rewrite <- E. apply match_mono; [exact K|]. rewrite E. discriminate.
Qed.
Lemma parse_same : forall r input k, needs r = 0 -> enough input <= k -> qparse k r input = qparse (enough input) r input.
Proof.
  intros r input k N K. destruct (parse_answers r input (enough input) N (le_n _)) as (o & E). rewrite E.
  exact (parse_mono r input (enough input) k o K E).
Qed.
