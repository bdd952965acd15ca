(** Proofs about the parser of grammar files: which characters expressions can start with, and how
    matches are put together. *)
From Coq Require Import String List NArith ZArith Arith Bool Lia.
From Verif Require Import Model_Text Model_Message Model_Meta Model_Pest2 Proof_Pest2.
Import ListNotations.
Open Scope list_scope.

(** * The first character of a match. *)
Definition range := (char * char)%type.
Definition in_ranges (c : char) (l : list range) : bool := existsb (fun r => (fst r <=? c) && (c <=? snd r))%N l.
Definition everything : list range := [(0, 1114111)%N].
Definition blanks : list range := [(32, 32); (9, 9); (10, 10); (13, 13); (47, 47)]%N.
Section First.
Variable next : qexpr -> list range.
Fixpoint first_step (e : qexpr) : list range :=
  match e with
  | Q_str (c :: _) => [(c, c)]
  | Q_chars a b => [(a, b)]
  | Q_rule r => next (body_of r)
  | Q_seq x y => first_step x ++ (if nullable level x then blanks ++ first_step y else [])
  | Q_choice x y => first_step x ++ first_step y
  | Q_opt x | Q_push x => first_step x
  | Q_rep x => if nullable level x then everything else first_step x
  | Q_more x => if nullable level x then everything else blanks ++ first_step x
  | Q_str [] | Q_soi | Q_end | Q_not _ | Q_and _ => []
  | Q_any | Q_peek | Q_pop => everything
  end.
End First.
Fixpoint first (l : nat) (e : qexpr) : list range :=
  first_step (match l with 0 => fun _ => everything | S l' => first l' end) e.
Lemma first_unfold : forall l e, first l e = first_step (match l with 0 => fun _ => everything | S l' => first l' end) e.
Proof. intros [|l] e; reflexivity. Qed.
Lemma in_app : forall c a b, in_ranges c (a ++ b) = in_ranges c a || in_ranges c b.
Proof. intros. apply existsb_app. Qed.
Definition subset (a b : list range) : bool :=
  forallb (fun r => existsb (fun r' => (fst r' <=? fst r) && (snd r <=? snd r'))%N b) a.
Lemma subset_in : forall a b c, subset a b = true -> in_ranges c a = true -> in_ranges c b = true.
Proof.
  intros a b c S H. unfold in_ranges in *. apply existsb_exists in H as (r & R & H). unfold subset in S. rewrite forallb_forall in S.
  apply S in R. apply existsb_exists in R as (r' & R' & L). apply existsb_exists. exists r'. split; [exact R'|].
  apply andb_prop in H as (H1 & H2). apply andb_prop in L as (L1 & L2). apply N.leb_le in H1, H2, L1, L2. apply andb_true_intro. split; apply N.leb_le; lia.
Qed.
(** Either nothing is consumed, or the first character is one of those. Characters are scalar values. *)
Definition small (s : qstate) : Prop := forall c r, q_rest s = c :: r -> (c <= 1114111)%N.
Definition starting (l : list range) (s s' : qstate) : Prop :=
  q_rest s' = q_rest s \/ forall c r, q_rest s = c :: r -> (c <= 1114111)%N -> in_ranges c l = true.
Lemma starting_all : forall s s', starting everything s s'.
Proof. intros s s'. right. intros c r _ L. unfold in_ranges, everything. cbn [existsb fst snd]. rewrite orb_false_r. apply andb_true_intro. split; apply N.leb_le; lia. Qed.
Lemma starting_sub : forall a b s s', (forall c, in_ranges c a = true -> in_ranges c b = true) -> starting a s s' -> starting b s s'.
Proof. intros a b s s' H [E|E]; [left; exact E|right]. intros c r E1 L. apply H. eapply E; eassumption. Qed.
Lemma first_sound : forall k l a e s s' ps, qmatch k a e s = Ret (Some (s', ps)) -> starting (first l e) s s'.
Proof.
  induction k as [|k IH]; intros l a e s s' ps H; [discriminate|].
  assert (SK : forall s s' ps, skip k a s = Ret (Some (s', ps)) -> starting blanks s s').
  { intros s0 s1 p E. unfold skip in E. destruct (skips a); [|injection E as <- <-; left; reflexivity].
    apply (IH level) in E. eapply starting_sub; [|exact E]. intros c. apply subset_in. vm_compute. reflexivity. }
  rewrite first_unfold.
  destruct e as [t|x y| | | |r|x y|x y|x|x|x|x|x|x| |]; cbn [first_step]; rewrite <- ?first_unfold.
  - apply plain_some in H as (H & _). apply eat_moved in H as (A & _). destruct t as [|c t]; [left; symmetry; exact A|right].
    intros d r E _. rewrite A in E. injection E as <- _. unfold in_ranges. cbn [existsb fst snd]. rewrite !N.leb_refl. reflexivity.
  - apply plain_some in H as (H & _). apply eat_char_moved in H as (c & T & A & _). right. intros d r E _. rewrite A in E. injection E as <- _.
    unfold in_ranges. cbn [existsb fst snd]. rewrite T. reflexivity.
  - apply starting_all.
  - cbn [qmatch] in H. destruct (q_pos s =? 0); [|discriminate]. injection H as <- <-. left. reflexivity.
  - cbn [qmatch] in H. destruct (q_rest s); [|discriminate]. injection H as <- <-. left. reflexivity.
  - rewrite match_rule in H. apply then_some in H as (s1 & p1 & X & H). injection H as <- <-.
    destruct l as [|l]; [apply starting_all|]. eapply IH, X.
  - apply seq_inv in H as (s1 & s2 & p1 & p0 & p2 & X & K & Y & _). pose proof (IH l _ _ _ _ _ X) as FX.
    destruct (nullable level x) eqn:N.
    + apply SK in K. apply (IH l) in Y. destruct FX as [E1|FX].
      * destruct K as [E2|K].
        -- destruct Y as [E3|Y]; [left; congruence|right]. intros c r E L. rewrite !in_app, !orb_true_iff. right. right. apply (Y c r); [congruence|exact L].
        -- right. intros c r E L. rewrite !in_app, !orb_true_iff. right. left. apply (K c r); [congruence|exact L].
      * right. intros c r E L. rewrite in_app, orb_true_iff. left. eapply FX; eassumption.
    + destruct FX as [E1|FX]; [pose proof (nullable_strict _ _ _ _ _ _ _ N X) as L; rewrite E1 in L; lia|].
      right. intros c r E L. rewrite in_app, orb_true_iff. left. eapply FX; eassumption.
  - apply choice_inv in H as [(t & E & X)|(_ & Y)].
    + injection E as <-. eapply starting_sub; [|eapply (IH l), X]. intros c E. rewrite in_app, E. reflexivity.
    + eapply starting_sub; [|eapply (IH l), Y]. intros c E. rewrite in_app, E. apply orb_true_r.
  - apply opt_inv in H as [X|(_ & E)]; [eapply IH, X|]. injection E as -> ->. left. reflexivity.
  - apply rep_inv in H as [(_ & -> & _)|(s1 & p1 & p2 & X & Y & _)]; [left; reflexivity|].
    destruct (nullable level x) eqn:N; [apply starting_all|].
    pose proof (IH l _ _ _ _ _ X) as [E|F]; [|right; exact F]. pose proof (nullable_strict _ _ _ _ _ _ _ N X) as L. rewrite E in L. lia.
  - apply more_inv in H as [(-> & _)|(s0 & p0 & s1 & p1 & p2 & K & X & Y & _)]; [left; reflexivity|].
    destruct (nullable level x) eqn:N; [apply starting_all|]. apply SK in K. pose proof (IH l _ _ _ _ _ X) as FX.
    destruct K as [E2|K].
    + destruct FX as [E1|FX]; [pose proof (nullable_strict _ _ _ _ _ _ _ N X) as L; rewrite E1 in L; lia|].
      right. intros c r E L. rewrite in_app, orb_true_iff. right. apply (FX c r); [congruence|exact L].
    + right. intros c r E L. rewrite in_app, orb_true_iff. left. eapply K; eassumption.
  - apply not_inv in H as (_ & E). injection E as -> ->. left. reflexivity.
  - apply and_inv in H as (_ & E). injection E as -> ->. left. reflexivity.
  - apply push_inv in H as (s1 & X & ->). apply (IH l) in X as [E|F]; [left; exact E|right; exact F].
  - apply starting_all.
  - apply starting_all.
Qed.

(** * Answers, whatever the fuel. *)
Definition ans (a : atomicity) (e : qexpr) (s : qstate) (o : option (qstate * list ppair)) : Prop :=
  exists k, qmatch k a e s = Ret o.
Lemma ans_more : forall a e s o, ans a e s o -> exists k, forall k', k <= k' -> qmatch k' a e s = Ret o.
Proof.
  intros a e s o (k & H). exists k. intros k' L. rewrite <- H. apply match_mono; [exact L|]. rewrite H. discriminate.
Qed.
Lemma ans_same : forall a e s o o', ans a e s o -> ans a e s o' -> o = o'.
Proof. intros a e s o o' (k & H) (k' & H'). eapply match_same; eassumption. Qed.
Lemma answers : forall e, moderate skip_depth e = true -> (exists m, after 0 e = Some m) -> forall a s, exists o, ans a e s o.
Proof.
  intros e M (m & A) a s. destruct (moderate_within skip_depth e M) as (d & D & L).
  assert (qmatch (S (length (q_rest s)) * nesting) a e s <> OutOfFuel) as T.
  { apply (match_ends skip_depth (fun _ => True)) with (n := length (q_rest s)) (d := d) (l := level).
    - trivial.
    - intros. apply moderate_bodies.
    - vm_compute. lia.
    - intros. apply skip_ends.
    - exact I.
    - exact M.
    - exact D.
    - apply le_n.
    - cbn [Nat.mul]. lia. }
  destruct (match_kept (S (length (q_rest s)) * nesting) 0 m a e s [] (q_stack s) A eq_refl eq_refl) as (P & _).
  destruct (qmatch (S (length (q_rest s)) * nesting) a e s) as [o| |] eqn:E; [|contradiction|contradiction]. exists o. eexists. exact E.
Qed.

(** Failure on a text. *)
Definition fails (a : atomicity) (e : qexpr) (r : text) : Prop := forall s, q_rest s = r -> ans a e s None.
Definition regular_part (e : qexpr) : bool :=
  moderate skip_depth e && negb (nullable level e) && match after 0 e with Some _ => true | None => false end.
(** A text that is empty or starts with a character of the class. *)
Definition in_class (l : list range) (r : text) : Prop := forall c r', r = c :: r' -> (c <= 1114111)%N /\ in_ranges c l = true.
Definition overlap (a b : list range) : bool :=
  existsb (fun r => existsb (fun r' => (fst r <=? snd r') && (fst r' <=? snd r))%N b) a.
Lemma overlap_none : forall a b c, overlap a b = false -> in_ranges c a = true -> in_ranges c b = true -> False.
Proof.
  intros a b c O A B. apply existsb_exists in A as (r & R & A). apply existsb_exists in B as (r' & R' & B).
  assert (overlap a b = true) as T; [|rewrite T in O; discriminate]. apply existsb_exists. exists r. split; [exact R|].
  apply existsb_exists. exists r'. split; [exact R'|]. apply andb_prop in A as (A1 & A2). apply andb_prop in B as (B1 & B2).
  apply N.leb_le in A1, A2, B1, B2. apply andb_true_intro. split; apply N.leb_le; lia.
Qed.
Lemma fails_class : forall l a e r, regular_part e && negb (overlap (first level e) l) = true -> in_class l r -> fails a e r.
Proof.
  intros l a e r H C s E. apply andb_prop in H as (H & O). apply negb_true_iff in O. apply andb_prop in H as (H & A). apply andb_prop in H as (M & N).
  apply negb_true_iff in N. destruct (after 0 e) as [m|] eqn:F; [|discriminate].
  destruct (answers e M (ex_intro _ m F) a s) as (o & X). destruct o as [(s', ps)|]; [exfalso|exact X].
  destruct X as (k & X). pose proof (nullable_strict _ _ _ _ _ _ _ N X) as L. destruct (first_sound _ level _ _ _ _ _ X) as [E'|G]; [rewrite E' in L; lia|].
  rewrite E in *. destruct r as [|c r]; [cbn [length] in L; lia|]. destruct (C c r eq_refl) as (B & D).
  eapply overlap_none; [exact O| |exact D]. eapply G; [reflexivity|exact B].
Qed.

(** Skipping white space. *)
Definition skipped (a : atomicity) (s s' : qstate) : Prop :=
  q_stack s' = q_stack s /\ if skips a then exists ps, ans Atomic skip_body s (Some (s', ps)) else s' = s.
Lemma skipped_more : forall a s s', skipped a s s' -> exists k ps, forall k', k <= k' -> skip k' a s = Ret (Some (s', ps)).
Proof.
  intros a s s' (_ & H). unfold skip. destruct (skips a).
  - destruct H as (ps & H). apply ans_more in H as (k & H). exists k, ps. exact H.
  - subst s'. exists 0, []. reflexivity.
Qed.
Definition passes (a : atomicity) (r v : text) : Prop := forall s, q_rest s = r -> exists s', skipped a s s' /\ q_rest s' = v.

(** Success on a text: after the match and white space, [v] is left. *)
Definition yields (a : atomicity) (e : qexpr) (r v : text) (P : list ppair -> Prop) : Prop :=
  forall s, q_rest s = r -> exists s' s'' ps, ans a e s (Some (s', ps)) /\ q_stack s' = q_stack s /\ skipped a s' s'' /\
    q_rest s'' = v /\ P ps.
(** Success that leaves exactly [v], before white space. *)
Definition exactly (a : atomicity) (e : qexpr) (r v : text) (P : list ppair -> Prop) : Prop :=
  forall s, q_rest s = r -> exists s' ps, ans a e s (Some (s', ps)) /\ q_stack s' = q_stack s /\ q_rest s' = v /\ P ps.
Lemma exactly_yields : forall a e r v v' P, exactly a e r v P -> passes a v v' -> yields a e r v' P.
Proof.
  intros a e r v v' P H G s E. destruct (H s E) as (s' & ps & A & S & R & Q). destruct (G s' R) as (s'' & G' & R').
  exists s', s'', ps. auto.
Qed.
Lemma yields_exactly : forall a e r v P, skips a = false -> yields a e r v P -> exactly a e r v P.
Proof.
  intros a e r v P N H s E. destruct (H s E) as (s' & s'' & ps & A & S & (_ & G) & R & Q). rewrite N in G. subst s''. exists s', ps. auto.
Qed.
Lemma yields_weaken : forall a e r v (P Q : list ppair -> Prop), yields a e r v P -> (forall ps, P ps -> Q ps) -> yields a e r v Q.
Proof. intros a e r v P Q H I s E. destruct (H s E) as (s' & s'' & ps & A & S & G & R & X). exists s', s'', ps. auto 6. Qed.
Lemma exactly_weaken : forall a e r v (P Q : list ppair -> Prop), exactly a e r v P -> (forall ps, P ps -> Q ps) -> exactly a e r v Q.
Proof. intros a e r v P Q H I s E. destruct (H s E) as (s' & ps & A & S & R & X). exists s', ps. auto 6. Qed.

(** Putting matches together. *)
Definition both (P Q : list ppair -> Prop) (ps : list ppair) : Prop := exists p q, ps = p ++ q /\ P p /\ Q q.
Definition nothing (ps : list ppair) : Prop := ps = [].
Lemma ans_seq : forall a x y s s1 s2 p o, ans a x s (Some (s1, p)) -> skipped a s1 s2 -> ans a y s2 o ->
  ans a (Q_seq x y) s (match o with Some (s3, q) => Some (s3, p ++ q) | None => None end).
Proof.
  intros a x y s s1 s2 p o X G Y. apply ans_more in X as (k1 & X). apply skipped_more in G as (k2 & ps & G). apply ans_more in Y as (k3 & Y).
  exists (Datatypes.S (k1 + k2 + k3)). cbn [qmatch]. rewrite X by lia. cbn [qthen obind]. fold (skip (k1 + k2 + k3) a s1). rewrite G by lia.
  cbn [qthen obind]. rewrite Y by lia. destruct o as [(s3, q)|]; reflexivity.
Qed.
Lemma yields_seq : forall a x y r v1 v P Q, yields a x r v1 P -> yields a y v1 v Q -> yields a (Q_seq x y) r v (both P Q).
Proof.
  intros a x y r v1 v P Q X Y s E. destruct (X s E) as (s1 & s2 & p & A & S & G & R & Pp).
  destruct (Y s2 R) as (s3 & s4 & q & A' & S' & G' & R' & Qq). exists s3, s4, (p ++ q).
  split; [exact (ans_seq _ _ _ _ _ _ _ _ A G A')|]. split; [rewrite S'; destruct G as (-> & _); exact S|].
  split; [exact G'|]. split; [exact R'|]. exists p, q. auto.
Qed.
Lemma exactly_seq : forall a x y r v1 v P Q, yields a x r v1 P -> exactly a y v1 v Q -> exactly a (Q_seq x y) r v (both P Q).
Proof.
  intros a x y r v1 v P Q X Y s E. destruct (X s E) as (s1 & s2 & p & A & S & G & R & Pp).
  destruct (Y s2 R) as (s3 & q & A' & S' & R' & Qq). exists s3, (p ++ q).
  split; [exact (ans_seq _ _ _ _ _ _ _ _ A G A')|]. split; [rewrite S'; destruct G as (-> & _); exact S|].
  split; [exact R'|]. exists p, q. auto.
Qed.
Lemma fails_seq1 : forall a x y r, fails a x r -> fails a (Q_seq x y) r.
Proof.
  intros a x y r X s E. destruct (X s E) as (k & H). exists (Datatypes.S k). cbn [qmatch]. rewrite H. reflexivity.
Qed.
Lemma fails_seq2 : forall a x y r v P, yields a x r v P -> fails a y v -> fails a (Q_seq x y) r.
Proof.
  intros a x y r v P X Y s E. destruct (X s E) as (s1 & s2 & p & A & S & G & R & Pp).
  exact (ans_seq _ _ _ _ _ _ _ _ A G (Y s2 R)).
Qed.
Lemma ans_choice1 : forall a x y s t, ans a x s (Some t) -> ans a (Q_choice x y) s (Some t).
Proof. intros a x y s t (k & H). exists (Datatypes.S k). cbn [qmatch]. rewrite H. reflexivity. Qed.
Lemma ans_choice2 : forall a x y s o, ans a x s None -> ans a y s o -> ans a (Q_choice x y) s o.
Proof.
  intros a x y s o X Y. apply ans_more in X as (k1 & X). apply ans_more in Y as (k2 & Y). exists (Datatypes.S (k1 + k2)). cbn [qmatch].
  rewrite X by lia. cbn [obind]. apply Y. lia.
Qed.
Lemma yields_choice1 : forall a x y r v P, yields a x r v P -> yields a (Q_choice x y) r v P.
Proof. intros a x y r v P X s E. destruct (X s E) as (s1 & s2 & p & A & H). exists s1, s2, p. split; [apply ans_choice1, A|exact H]. Qed.
Lemma yields_choice2 : forall a x y r v P, fails a x r -> yields a y r v P -> yields a (Q_choice x y) r v P.
Proof. intros a x y r v P F X s E. destruct (X s E) as (s1 & s2 & p & A & H). exists s1, s2, p. split; [apply ans_choice2; [apply F, E|exact A]|exact H]. Qed.
Lemma exactly_choice1 : forall a x y r v P, exactly a x r v P -> exactly a (Q_choice x y) r v P.
Proof. intros a x y r v P X s E. destruct (X s E) as (s1 & p & A & H). exists s1, p. split; [apply ans_choice1, A|exact H]. Qed.
Lemma exactly_choice2 : forall a x y r v P, fails a x r -> exactly a y r v P -> exactly a (Q_choice x y) r v P.
Proof. intros a x y r v P F X s E. destruct (X s E) as (s1 & p & A & H). exists s1, p. split; [apply ans_choice2; [apply F, E|exact A]|exact H]. Qed.
Lemma fails_choice : forall a x y r, fails a x r -> fails a y r -> fails a (Q_choice x y) r.
Proof. intros a x y r X Y s E. apply ans_choice2; [apply X, E|apply Y, E]. Qed.
Lemma yields_opt : forall a x r v P, yields a x r v P -> yields a (Q_opt x) r v P.
Proof.
  intros a x r v P X s E. destruct (X s E) as (s1 & s2 & p & (k & A) & H). exists s1, s2, p. split; [|exact H].
  exists (Datatypes.S k). cbn [qmatch]. rewrite A. reflexivity.
Qed.
Lemma exactly_opt : forall a x r v P, exactly a x r v P -> exactly a (Q_opt x) r v P.
Proof.
  intros a x r v P X s E. destruct (X s E) as (s1 & p & (k & A) & H). exists s1, p. split; [|exact H].
  exists (Datatypes.S k). cbn [qmatch]. rewrite A. reflexivity.
Qed.
Lemma exactly_opt_none : forall a x r, fails a x r -> exactly a (Q_opt x) r r nothing.
Proof.
  intros a x r F s E. destruct (F s E) as (k & A). exists s, []. split; [exists (Datatypes.S k); cbn [qmatch]; rewrite A; reflexivity|].
  split; [reflexivity|]. split; [exact E|reflexivity].
Qed.
Lemma yields_opt_none : forall a x r, fails a x r -> passes a r r -> yields a (Q_opt x) r r nothing.
Proof. intros a x r F G. eapply exactly_yields; [apply exactly_opt_none, F|exact G]. Qed.
Lemma exactly_not : forall a x r, fails a x r -> exactly a (Q_not x) r r nothing.
Proof.
  intros a x r F s E. destruct (F s E) as (k & A). exists s, []. split; [exists (Datatypes.S k); cbn [qmatch]; rewrite A; reflexivity|].
  split; [reflexivity|]. split; [exact E|reflexivity].
Qed.
Lemma fails_not : forall a x r v P, exactly a x r v P -> fails a (Q_not x) r.
Proof. intros a x r v P X s E. destruct (X s E) as (s1 & p & (k & A) & _). exists (Datatypes.S k). cbn [qmatch]. rewrite A. reflexivity. Qed.
Lemma exactly_and : forall a x r v P, exactly a x r v P -> exactly a (Q_and x) r r nothing.
Proof.
  intros a x r v P X s E. destruct (X s E) as (s1 & p & (k & A) & _). exists s, []. split; [exists (Datatypes.S k); cbn [qmatch]; rewrite A; reflexivity|].
  split; [reflexivity|]. split; [exact E|reflexivity].
Qed.
Lemma exactly_str : forall a t v, exactly a (Q_str t) (t ++ v) v nothing.
Proof.
  intros a t v s E. exists (mkQ (q_pos s + blen t) v (q_stack s)), []. split.
  - exists 1. cbn [qmatch]. unfold eat. rewrite E, strip_app. reflexivity.
  - repeat split.
Qed.
Lemma fails_str : forall a t r, strip t r = None -> fails a (Q_str t) r.
Proof. intros a t r H s E. exists 1. cbn [qmatch]. unfold eat. rewrite E, H. reflexivity. Qed.
Lemma exactly_chars : forall a x y c v, (x <= c <= y)%N -> exactly a (Q_chars x y) (c :: v) v nothing.
Proof.
  intros a x y c v L s E. exists (mkQ (q_pos s + len_utf8 c) v (q_stack s)), []. split; [|repeat split].
  exists 1. cbn [qmatch]. unfold eat_char. rewrite E. replace ((x <=? c) && (c <=? y))%N with true; [reflexivity|].
  symmetry. apply andb_true_intro. split; apply N.leb_le; lia.
Qed.
Lemma fails_chars : forall a x y r, (forall c r', r = c :: r' -> c < x \/ y < c)%N -> fails a (Q_chars x y) r.
Proof.
  intros a x y r H s E. exists 1. cbn [qmatch]. unfold eat_char. rewrite E. destruct r as [|c r]; [reflexivity|].
  replace ((x <=? c) && (c <=? y))%N with false; [reflexivity|]. symmetry. apply andb_false_iff.
  destruct (H c r eq_refl); [left|right]; apply N.leb_gt; lia.
Qed.
Lemma exactly_any : forall a c v, exactly a Q_any (c :: v) v nothing.
Proof.
  intros a c v s E. exists (mkQ (q_pos s + len_utf8 c) v (q_stack s)), []. split; [|repeat split].
  exists 1. cbn [qmatch]. unfold eat_char. rewrite E. reflexivity.
Qed.
Lemma fails_any : forall a, fails a Q_any [].
Proof. intros a s E. exists 1. cbn [qmatch]. unfold eat_char. rewrite E. reflexivity. Qed.
Lemma exactly_end : forall a, exactly a Q_end [] [] nothing.
Proof. intros a s E. exists s, []. split; [exists 1; cbn [qmatch]; rewrite E; reflexivity|]. repeat split. exact E. Qed.
Lemma fails_end : forall a c v, fails a Q_end (c :: v).
Proof. intros a c v s E. exists 1. cbn [qmatch]. rewrite E. reflexivity. Qed.

(** Rules. *)
Definition one_pair (r : grule) (P : list ppair -> Prop) (ps : list ppair) : Prop :=
  exists u i j l, ps = [mkPPair r u i j l] /\ P l.
Definition token (r : grule) (u : text) (P : list ppair -> Prop) (ps : list ppair) : Prop :=
  exists i j l, ps = [mkPPair r u i j l] /\ P l.
Lemma ans_rule : forall a r s s' ps, ans (inside_of a r) (body_of r) s (Some (s', ps)) -> ans a (Q_rule r) s (Some (s', wrap a r s s' ps)).
Proof. intros a r s s' ps (k & H). exists (Datatypes.S k). rewrite match_rule, H. reflexivity. Qed.
Lemma fails_rule : forall a r v, fails (inside_of a r) (body_of r) v -> fails a (Q_rule r) v.
Proof. intros a r v F s E. destruct (F s E) as (k & H). exists (Datatypes.S k). rewrite match_rule, H. reflexivity. Qed.
Lemma yields_loud : forall a r v v' P, inside_of a (Loud r) = a -> makes a r = true -> yields a (loud_body r) v v' P ->
  yields a (Q_rule (Loud r)) v v' (one_pair r P).
Proof.
  intros a r v v' P I M X s E. destruct (X s E) as (s1 & s2 & p & A & S & G & R & Pp). exists s1, s2.
  eexists. split; [apply ans_rule; rewrite I; exact A|]. split; [exact S|]. split; [exact G|]. split; [exact R|].
  cbn [wrap]. rewrite M. eexists _, _, _, _. split; [reflexivity|exact Pp].
Qed.
Lemma exactly_loud : forall a r u v P, makes a r = true -> exactly (inside_of a (Loud r)) (loud_body r) (u ++ v) v P ->
  exactly a (Q_rule (Loud r)) (u ++ v) v (token r u P).
Proof.
  intros a r u v P M X s E. destruct (X s E) as (s1 & p & A & S & R & Pp). exists s1.
  eexists. split; [apply ans_rule; exact A|]. split; [exact S|]. split; [exact R|].
  cbn [wrap]. rewrite M. eexists _, _, _. split; [|exact Pp].
  destruct A as (k & A). apply match_moved in A as (u' & Mo). rewrite (taken_moved _ _ _ Mo). destruct Mo as (Mo & _).
  rewrite E, R in Mo. apply app_inv_tail in Mo as <-. reflexivity.
Qed.
Lemma exactly_quiet : forall a r u v P, makes a r = false -> exactly (inside_of a (Loud r)) (loud_body r) (u ++ v) v P ->
  exactly a (Q_rule (Loud r)) (u ++ v) v P.
Proof.
  intros a r u v P M X s E. destruct (X s E) as (s1 & p & A & S & R & Pp). exists s1.
  eexists. split; [apply ans_rule; exact A|]. split; [exact S|]. split; [exact R|].
  cbn [wrap]. rewrite M. exact Pp.
Qed.
Lemma yields_silent : forall a r v v' P, inside_of a (Silent r) = a -> yields a (silent_body r) v v' P -> yields a (Q_rule (Silent r)) v v' P.
Proof.
  intros a r v v' P I X s E. destruct (X s E) as (s1 & s2 & p & A & H). exists s1, s2, p. split; [|exact H].
  apply (ans_rule a (Silent r) s s1 p). rewrite I. exact A.
Qed.
Lemma exactly_silent : forall a r v v' P, exactly (inside_of a (Silent r)) (silent_body r) v v' P -> exactly a (Q_rule (Silent r)) v v' P.
Proof.
  intros a r v v' P X s E. destruct (X s E) as (s1 & p & A & H). exists s1, p. split; [|exact H].
  apply (ans_rule a (Silent r) s s1 p). exact A.
Qed.

(** Repetitions. *)
Definition goes (a : atomicity) (x : qexpr) (v1 v : text) (P : list ppair -> Prop) : Prop :=
  forall s s1, skipped a s s1 -> q_rest s1 = v1 -> exists s' s'' ps, ans a (Q_more x) s (Some (s', ps)) /\ q_stack s' = q_stack s /\
    skipped a s' s'' /\ q_rest s'' = v /\ P ps.
Definition steps (a : atomicity) (x : qexpr) (v1 v2 : text) (P : list ppair -> Prop) : Prop :=
  forall v Q, goes a x v2 v Q -> goes a x v1 v (both P Q).
Lemma goes_weaken : forall a x v1 v (P Q : list ppair -> Prop), goes a x v1 v P -> (forall ps, P ps -> Q ps) -> goes a x v1 v Q.
Proof. intros a x v1 v P Q H I s s1 G E. destruct (H s s1 G E) as (s' & s'' & ps & A & S & G' & R & X). exists s', s'', ps. auto 6. Qed.
Lemma goes_nil : forall a x v, fails a x v -> goes a x v v nothing.
Proof.
  intros a x v F s s1 G E. exists s, s1, []. split; [|repeat split; try assumption; apply G].
  destruct (ans_more _ _ _ _ (F s1 E)) as (k1 & X). destruct (skipped_more _ _ _ G) as (k2 & ps & K). exists (Datatypes.S (k1 + k2)).
  cbn [qmatch]. fold (skip (k1 + k2) a s). rewrite K by lia. cbn [qthen obind]. rewrite X by lia. reflexivity.
Qed.
Lemma goes_cons : forall a x v1 v2 v P Q, yields a x v1 v2 P -> goes a x v2 v Q -> goes a x v1 v (both P Q).
Proof.
  intros a x v1 v2 v P Q X Y s s1 G E. destruct (X s1 E) as (s2 & s3 & p & A & S & G2 & R2 & Pp).
  destruct (Y s2 s3 G2 R2) as (s' & s'' & q & A' & S' & G' & R' & Qq). exists s', s'', (p ++ q). split.
  - apply ans_more in A as (k1 & A). apply ans_more in A' as (k2 & A'). destruct (skipped_more _ _ _ G) as (k3 & ps & K).
    exists (Datatypes.S (k1 + k2 + k3)). cbn [qmatch]. fold (skip (k1 + k2 + k3) a s). rewrite K by lia. cbn [qthen obind]. rewrite A by lia. cbn [obind].
    rewrite A' by lia. reflexivity.
  - split; [rewrite S', S; apply G|]. split; [exact G'|]. split; [exact R'|]. exists p, q. auto.
Qed.
Lemma steps_nil : forall a x v, steps a x v v nothing.
Proof.
  intros a x v v' Q H. eapply goes_weaken; [exact H|]. intros ps X. exists [], ps. repeat split. exact X.
Qed.
Lemma both_assoc : forall P Q R ps, both P (both Q R) ps -> both (both P Q) R ps.
Proof.
  intros P Q R ps (p & q' & -> & Pp & (q & r & -> & Qq & Rr)). exists (p ++ q), r. split; [apply app_assoc|]. split; [|exact Rr]. exists p, q. auto.
Qed.
Lemma steps_app : forall a x v1 v2 v3 P Q, steps a x v1 v2 P -> steps a x v2 v3 Q -> steps a x v1 v3 (both P Q).
Proof.
  intros a x v1 v2 v3 P Q X Y v R H. eapply goes_weaken; [apply X, Y, H|]. apply both_assoc.
Qed.
Lemma steps_one : forall a x v1 v2 P, yields a x v1 v2 P -> steps a x v1 v2 P.
Proof. intros a x v1 v2 P X v Q H. eapply goes_cons; eassumption. Qed.
Lemma steps_weaken : forall a x v1 v2 (P P' : list ppair -> Prop), steps a x v1 v2 P -> (forall ps, P ps -> P' ps) -> steps a x v1 v2 P'.
Proof.
  intros a x v1 v2 P P' H I v Q G. eapply goes_weaken; [apply H, G|]. intros ps (p & q & -> & Pp & Qq). exists p, q. auto.
Qed.
Lemma both_nil : forall P ps, both P nothing ps -> P ps.
Proof. intros P ps (p & q & -> & Pp & ->). rewrite app_nil_r. exact Pp. Qed.
Lemma steps_goes : forall a x v1 v2 P, steps a x v1 v2 P -> fails a x v2 -> goes a x v1 v2 P.
Proof. intros a x v1 v2 P H F. eapply goes_weaken; [apply H, goes_nil, F|]. apply both_nil. Qed.
Lemma yields_rep_none : forall a x v, fails a x v -> passes a v v -> yields a (Q_rep x) v v nothing.
Proof.
  intros a x v F G s E. destruct (F s E) as (k & A). destruct (G s E) as (s' & G' & R). exists s, s', [].
  split; [exists (Datatypes.S k); cbn [qmatch]; rewrite A; reflexivity|]. repeat split; try assumption; apply G'.
Qed.
Lemma yields_rep_more : forall a x v1 v2 v P Q, yields a x v1 v2 P -> goes a x v2 v Q -> yields a (Q_rep x) v1 v (both P Q).
Proof.
  intros a x v1 v2 v P Q X Y s E. destruct (X s E) as (s2 & s3 & p & A & S & G2 & R2 & Pp).
  destruct (Y s2 s3 G2 R2) as (s' & s'' & q & A' & S' & G' & R' & Qq). exists s', s'', (p ++ q). split.
  - apply ans_more in A as (k1 & A). apply ans_more in A' as (k2 & A').
    exists (Datatypes.S (k1 + k2)). cbn [qmatch]. rewrite A by lia. cbn [obind]. rewrite A' by lia. reflexivity.
  - split; [rewrite S', S; reflexivity|]. split; [exact G'|]. split; [exact R'|]. exists p, q. auto.
Qed.
(** From a text without white space in front, the first round is like the others. *)
Lemma yields_rep : forall a x v1 v P, passes a v1 v1 -> steps a x v1 v P -> fails a x v -> yields a (Q_rep x) v1 v P.
Proof.
  intros a x v1 v P G H F s E. destruct (G s E) as (s1 & G1 & R1).
  pose proof (steps_goes _ _ _ _ _ H F) as M. destruct (M s s1 G1 R1) as (s' & s'' & ps & A & S & G' & R & X).
  exists s', s'', ps. split; [|repeat split; try assumption; apply G'].
  (* the skipped text is empty *)
  assert (s1 = s) as ->.
  { destruct G1 as (St & G1). destruct (skips a); [|exact G1]. destruct G1 as (q & k & K). apply match_moved in K as (u & Mo & Po).
    rewrite E, R1 in Mo. assert (u = []) as -> by (destruct u; [reflexivity|apply (f_equal (@length _)) in Mo; cbn [app length] in Mo; rewrite app_length in Mo; lia]).
    cbn [blen] in Po. destruct s, s1. cbn in *. subst. f_equal. lia. }
  apply ans_more in A as (k & A). apply skipped_more in G1 as (k2 & q & G1).
  assert (qmatch (Datatypes.S (k + k2)) a (Q_more x) s = Ret (Some (s', ps))) as B by (apply A; lia).
  cbn [qmatch] in B. fold (skip (k + k2) a s) in B. rewrite G1 in B by lia. cbn [qthen obind] in B.
  exists (Datatypes.S (k + k2)). exact B.
Qed.
Lemma steps_exactly_rep : forall a x v1 v P, skips a = false -> steps a x v1 v P -> fails a x v -> exactly a (Q_rep x) v1 v P.
Proof.
  intros a x v1 v P N H F. apply yields_exactly; [exact N|]. apply yields_rep; [|exact H|exact F].
  intros s E. exists s. split; [|exact E]. split; [reflexivity|]. rewrite N. reflexivity.
Qed.
