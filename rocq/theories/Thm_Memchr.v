(** C92: skipping until one of some strings with the help of [memchr] (core/src/position.rs L306-384). *)
From Coq Require Import String List NArith Arith Bool Lia.
From Verif Require Import Model_Text Model_Position Model_Memchr Spec_Text Proof_Text Proof_Position.
Import ListNotations.
Open Scope list_scope.

(** One of the strings begins at the offset [i] of [b]. *)
Definition hit (strings : list text) (b : text) (i : nat) : Prop := exists rest, get_from b i = Some rest /\ occurs strings rest.
Definition first_hit (strings : list text) (b : text) (o : option nat) : Prop :=
  match o with Some i => hit strings b i /\ forall j, j < i -> ~ hit strings b j | None => forall j, ~ hit strings b j end.
Lemma first_unique : forall strings b o o', first_hit strings b o -> first_hit strings b o' -> o = o'.
Proof.
  intros strings b [i|] [j|] H H'; cbn in *; try reflexivity.
  - destruct H as (H & F), H' as (H' & F'). destruct (lt_eq_lt_dec i j) as [[L|L]|L]; [destruct (F' _ L H)|congruence|destruct (F _ L H')].
  - destruct (H' _ (proj1 H)).
  - destruct (H _ (proj1 H')).
Qed.
Lemma get_from_shift : forall a b i, get_from (a ++ b) (blen a + i) = get_from b i.
Proof.
  intros a b i. induction a as [|c a IH]; [reflexivity|]. cbn [app blen]. assert (P := len_utf8_pos c).
  destruct (len_utf8 c + blen a + i) as [|n] eqn:E; [lia|]. cbn [get_from]. rewrite <- E. destruct (len_utf8 c <=? len_utf8 c + blen a + i) eqn:L; [|lia].
  replace (len_utf8 c + blen a + i - len_utf8 c) with (blen a + i) by lia. exact IH.
Qed.
Lemma basic_first : forall a b strings, Forall (fun t => t <> []) strings -> exists o, first_hit strings b o /\ skip_until (a ++ b) (blen a) strings = found (a ++ b) (option_map (Nat.add (blen a)) o).
Proof.
  intros a b strings Ne. unfold skip_until. destruct (skip_until_loop (a ++ b) strings (blen a) (blen (a ++ b) - blen a)) as [p|] eqn:E.
  - apply skip_until_loop_some in E. destruct E as (L & (r & G & O) & F). exists (Some (p - blen a)). split; [|cbn; do 2 f_equal; lia]. split.
    + exists r. split; [|exact O]. rewrite <- (get_from_shift a). replace (blen a + (p - blen a)) with p by lia. exact G.
    + intros j Lj (r' & G' & O'). rewrite <- (get_from_shift a) in G'. apply (F (blen a + j) r'); [lia|exact G'|exact O'].
  - exists None. split; [|reflexivity]. intros j (r & G & O). assert (G' := G). rewrite <- (get_from_shift a) in G'. apply get_from_inv in G. destruct G as (m & -> & <-).
    refine (skip_until_loop_none _ _ _ _ E (blen a + blen m) r _ G' O). rewrite !blen_app. destruct r as [|c r]; [|cbn [blen]; assert (P := len_utf8_pos c); lia].
    destruct O as (t & I & r' & Q). rewrite Forall_forall in Ne. specialize (Ne t I). destruct t; [destruct (Ne eq_refl)|discriminate Q].
Qed.

(** A byte that begins a character is not within another one. *)
Definition leads (x : byte) : Prop := (x < 128 \/ 192 <= x)%N.
Lemma first_leads : forall c, exists x r, encode_utf8 c = x :: r /\ leads x /\ Forall (fun y => ~ leads y) r /\ length r + 1 = len_utf8 c.
Proof.
  intro c. unfold encode_utf8, len_utf8, leads.
  assert (M : forall z, ~ (128 + z mod 64 < 128 \/ 192 <= 128 + z mod 64)%N) by (intro z; assert (H := N.mod_upper_bound z 64 ltac:(discriminate)); lia).
  destruct (c <? 128)%N eqn:E1; [|destruct (c <? 2048)%N eqn:E2; [|destruct (c <? 65536)%N eqn:E3]]; eexists _, _; (split; [reflexivity|]); (split; [try lia|split; [repeat constructor; try apply M|reflexivity]]).
  all: try (right; apply N.le_trans with (m := (192 + 0)%N); [reflexivity|]; apply N.add_le_mono; [discriminate|apply N.le_0_l]).
Qed.
Lemma aligned : forall b i x, nth_error (bytes b) i = Some x -> leads x -> exists rest, get_from b i = Some rest.
Proof.
  intro b. induction b as [|c b IH]; intros i x H Lx; [destruct i; discriminate H|]. destruct (first_leads c) as (y & r & E & _ & Nr & Lr). cbn [bytes flat_map] in H. rewrite E in H.
  destruct i as [|i]; [eexists; reflexivity|]. cbn [app nth_error] in H. cbn [get_from]. destruct (len_utf8 c <=? S i) eqn:L.
  - apply (IH _ x); [|exact Lx]. rewrite nth_error_app2 in H by lia. replace (S i - len_utf8 c) with (i - length r) by lia. exact H.
  - rewrite nth_error_app1 in H by lia. apply nth_error_In in H. rewrite Forall_forall in Nr. destruct (Nr _ H Lx).
Qed.
Lemma skipn_from : forall b i rest, get_from b i = Some rest -> skipn i (bytes b) = bytes rest.
Proof. intros b i rest G. apply get_from_inv in G. destruct G as (a & -> & <-). apply bytes_skipn. Qed.
Lemma skipn_nth : forall (l : list byte) i, skipn i l = match nth_error l i with Some x => x :: skipn (i + 1) l | None => [] end.
Proof. intros l. induction l as [|y l IH]; intros [|i]; try reflexivity. exact (IH i). Qed.
Lemma begins_with : forall t rest, begins (bytes t) (bytes rest) = true <-> starts_with t rest.
Proof.
  intros t rest. assert (A := any_prefix_spec [t] rest). cbn [any_prefix] in A. unfold begins. rewrite bytes_length.
  assert (O : occurs [t] rest <-> starts_with t rest) by (split; [intros (l & [<-|[]] & H); exact H|intro H; exists t; split; [left; reflexivity|exact H]]).
  rewrite <- O, <- A. destruct (bytes_get (bytes rest) 0 (blen t)) as [x|]; [|reflexivity]. destruct (bytes_eqb (bytes t) x); reflexivity.
Qed.
Lemma begins_first : forall x n hay, begins (x :: n) hay = true -> exists r, hay = x :: r.
Proof.
  intros x n hay H. unfold begins, bytes_get in H. destruct hay as [|y r]; [discriminate H|]. destruct ((0 <=? _) && _); [|discriminate H]. cbn in H. apply andb_true_iff in H. destruct H as (H & _).
  apply N.eqb_eq in H. subst. eauto.
Qed.
Lemma bytes_first : forall t, t <> [] -> exists x n, bytes t = x :: n /\ leads x /\ first_byte t = Ret x.
Proof. intros [|c t] H; [destruct (H eq_refl)|]. destruct (first_leads c) as (x & r & E & L & _). exists x, (r ++ bytes t). unfold first_byte. cbn [bytes flat_map]. rewrite E. auto. Qed.
Lemma begins_hit : forall b t i, t <> [] -> begins (bytes t) (skipn i (bytes b)) = true <-> hit [t] b i.
Proof.
  intros b t i Ne. destruct (bytes_first t Ne) as (x & n & E & Lx & _). split.
  - intro B. assert (B' := B). rewrite E in B'. apply begins_first in B'. destruct B' as (r & Q). rewrite skipn_nth in Q. destruct (nth_error (bytes b) i) as [y|] eqn:N; [|discriminate Q]. injection Q as -> _.
    destruct (aligned b i x N Lx) as (rest & G). exists rest. split; [exact G|]. exists t. split; [left; reflexivity|]. rewrite (skipn_from _ _ _ G) in B. apply begins_with, B.
  - intros (rest & G & l & [<-|[]] & S). rewrite (skipn_from _ _ _ G). apply begins_with, S.
Qed.

Lemma memmem_first : forall t hay, t <> [] ->
  match memmem_find hay (bytes t) with
  | Some i => begins (bytes t) (skipn i hay) = true /\ forall j, j < i -> begins (bytes t) (skipn j hay) = false
  | None => forall j, begins (bytes t) (skipn j hay) = false
  end.
Proof.
  intros t hay Ne. destruct (bytes_first t Ne) as (x & n & E & _).
  induction hay as [|y r IH]; cbn [memmem_find].
  - destruct (begins (bytes t) []) eqn:B; [rewrite E in B; apply begins_first in B; destruct B; discriminate|]. intro j. rewrite skipn_nil. exact B.
  - destruct (begins (bytes t) (y :: r)) eqn:B; [split; [exact B|lia]|]. destruct (memmem_find r (bytes t)) as [i|]; cbn [option_map].
    + destruct IH as (H & F). split; [exact H|]. intros [|j] L; [exact B|]. apply F. lia.
    + intros [|j]; [exact B|]. apply IH.
Qed.

Lemma memchr_first : forall strings a b bs, Forall (fun x => leads x) bs -> forall hay o, skipn o (bytes b) = hay ->
  exists r, memchr_loop (a ++ b) (blen a) strings (memchr_iter bs hay o) = Ret (option_map (Nat.add (blen a)) r) /\
  (Forall (fun t => exists x n, bytes t = x :: n /\ In x bs) strings ->
   match r with Some i => o <= i /\ hit strings b i /\ forall j, o <= j < i -> ~ hit strings b j | None => forall j, o <= j -> ~ hit strings b j end).
Proof.
  intros strings a b bs Lb hay. induction hay as [|x hay IH]; intros o E; cbn [memchr_iter].
  - exists None. split; [reflexivity|]. intros Fs j L (rest & G & t & I & (q & Q)). rewrite Forall_forall in Fs. destruct (Fs t I) as (y & n & Ey & _).
    assert (S := skipn_from _ _ _ G). subst rest. rewrite bytes_app, Ey in S. assert (Ls := f_equal (@length _) S). rewrite skipn_length in Ls. assert (Lo := f_equal (@length _) E). rewrite skipn_length in Lo. cbn in Ls, Lo. lia.
  - assert (Nx : nth_error (bytes b) o = Some x) by (rewrite skipn_nth in E; destruct (nth_error (bytes b) o); [injection E as -> _; reflexivity|discriminate E]).
    assert (E' : skipn (o + 1) (bytes b) = hay) by (rewrite skipn_nth, Nx in E; injection E as E; exact E).
    destruct (IH (o + 1) E') as (r & R & F). destruct (existsb (N.eqb x) bs) eqn:Ex.
    + apply existsb_exists in Ex. destruct Ex as (y & Iy & Q). apply N.eqb_eq in Q. subst y. rewrite Forall_forall in Lb. destruct (aligned b o x Nx (Lb x Iy)) as (rest & G).
      cbn [memchr_loop]. rewrite get_from_shift, G. cbn [or_panic obind]. destruct (existsb (fun t => begins (bytes t) (bytes rest)) strings) eqn:H.
      * exists (Some o). split; [reflexivity|]. intros _. split; [lia|]. split; [|lia]. apply existsb_exists in H. destruct H as (t & It & B). exists rest. split; [exact G|]. exists t. split; [exact It|apply begins_with, B].
      * assert (No : ~ hit strings b o).
        { intros (rest' & G' & t & It & S). rewrite G in G'. injection G' as <-. apply begins_with in S. assert (existsb (fun t => begins (bytes t) (bytes rest)) strings = true) by (apply existsb_exists; eauto). congruence. }
        exists r. split; [exact R|]. intro Fs. specialize (F Fs). destruct r as [i|].
        -- destruct F as (L & Hi & F). split; [lia|]. split; [exact Hi|]. intros j Lj. destruct (Nat.eq_dec j o) as [->|D]; [exact No|apply F; lia].
        -- intros j Lj. destruct (Nat.eq_dec j o) as [->|D]; [exact No|apply F; lia].
    + exists r. split; [exact R|]. intro Fs. specialize (F Fs).
      assert (No : ~ hit strings b o).
      { intros (rest & G & t & It & (q & Q)). rewrite Forall_forall in Fs. destruct (Fs t It) as (y & n & Ey & Iy). assert (S := skipn_from _ _ _ G). rewrite E in S. subst rest. rewrite bytes_app, Ey in S. injection S as -> _.
        assert (existsb (N.eqb y) bs = true) by (apply existsb_exists; exists y; split; [exact Iy|apply N.eqb_refl]). congruence. }
      destruct r as [i|].
      * destruct F as (L & Hi & F). split; [lia|]. split; [exact Hi|]. intros j Lj. destruct (Nat.eq_dec j o) as [->|D]; [exact No|apply F; lia].
      * intros j Lj. destruct (Nat.eq_dec j o) as [->|D]; [exact No|apply F; lia].
Qed.

(** With strings that are not empty, both ways to skip give the same. *)
Theorem C92_same : forall a b strings, Forall (fun t => t <> []) strings ->
  skip_until_memchr (a ++ b) (blen a) strings = Ret (skip_until (a ++ b) (blen a) strings).
Proof.
  intros a b strings Ne. destruct (basic_first a b strings Ne) as (o & Fo & Eo).
  assert (Lb : (blen (a ++ b) <? blen a) = false) by (rewrite blen_app; lia).
  destruct strings as [|s1 [|s2 [|s3 [|s4 strings]]]]; cbn [skip_until_memchr].
  - rewrite Eo. destruct o as [i|]; [|reflexivity]. destruct Fo as ((rest & _ & t & [] & _) & _).
  - rewrite Lb, Eo, bytes_skipn. inversion Ne as [|? ? N1 _]; subst. assert (M := memmem_first s1 (bytes b) N1).
    replace (memmem_find (bytes b) (bytes s1)) with o; [reflexivity|]. eapply first_unique; [exact Fo|]. destruct (memmem_find (bytes b) (bytes s1)) as [i|].
    + destruct M as (B & F). split; [apply begins_hit; assumption|]. intros j L H. apply begins_hit in H; [|exact N1]. rewrite (F j L) in H. discriminate H.
    + intros j H. apply begins_hit in H; [|exact N1]. rewrite (M j) in H. discriminate H.
  - inversion Ne as [|? ? N1 Ne2]; subst. inversion Ne2 as [|? ? N2 _]; subst. destruct (bytes_first s1 N1) as (x & n & Ex & Lx & Bx). destruct (bytes_first s2 N2) as (y & n' & Ey & Ly & By).
    replace (is_empty s1) with false by (destruct s1; [destruct (N1 eq_refl)|reflexivity]). replace (is_empty s2) with false by (destruct s2; [destruct (N2 eq_refl)|reflexivity]).
    cbn [negb andb]. rewrite Bx, By. cbn [obind]. rewrite Lb, bytes_skipn.
    destruct (memchr_first [s1; s2] a b [x; y] (Forall_cons _ Lx (Forall_cons _ Ly (Forall_nil _))) (bytes b) 0 eq_refl) as (r & R & F). unfold text in *. rewrite R. cbn [obind]. rewrite Eo.
    replace r with o; [reflexivity|]. eapply first_unique; [exact Fo|]. specialize (F ltac:(constructor; [exists x, n; cbn; auto|constructor; [exists y, n'; cbn; auto|constructor]])).
    destruct r as [i|]; [destruct F as (_ & H & F); split; [exact H|intros j L; apply F; lia]|intro j; apply F; lia].
  - inversion Ne as [|? ? N1 Ne2]; subst. inversion Ne2 as [|? ? N2 Ne3]; subst. inversion Ne3 as [|? ? N3 _]; subst. destruct s3 as [|c s3]; [destruct (N3 eq_refl)|].
    cbn [is_empty]. rewrite andb_false_r. reflexivity.
  - reflexivity.
Qed.
Print Assumptions C92_same.
(** So it stops at the first of them, or at the end. *)
Theorem C92_first : forall a b strings ok p, Forall (fun t => t <> []) strings -> skip_until_memchr (a ++ b) (blen a) strings = Ret (ok, p) ->
  if ok then
    exists m r, b = m ++ r /\ r <> [] /\ p = blen (a ++ m) /\ occurs strings r /\
      forall m' r', b = m' ++ r' -> length m' < length m -> ~ occurs strings r'
  else p = blen (a ++ b) /\ forall m r, b = m ++ r -> r <> [] -> ~ occurs strings r.
Proof. intros a b strings ok p Ne H. rewrite C92_same in H by exact Ne. injection H as H. exact (skip_until_sound a b strings ok p H). Qed.
Print Assumptions C92_first.
(** It never panics, whatever the strings are, and never goes back. *)
Theorem C92_no_panic : forall a b strings, exists ok p, skip_until_memchr (a ++ b) (blen a) strings = Ret (ok, p).
Proof.
  intros a b strings. assert (Lb : (blen (a ++ b) <? blen a) = false) by (rewrite blen_app; lia).
  assert (Any : forall x : bool * nat, exists ok p, Ret x = Ret (ok, p)) by (intros (ok, p); eauto).
  assert (Nil : forall t, is_empty t = false -> t <> []) by (intros t E ->; discriminate E).
  destruct strings as [|s1 [|s2 [|s3 [|s4 strings]]]]; cbn [skip_until_memchr]; try apply Any.
  - rewrite Lb. apply Any.
  - destruct (is_empty s1) eqn:E1; [apply Any|]. destruct (is_empty s2) eqn:E2; [apply Any|]. cbn [negb andb].
    destruct (bytes_first s1 (Nil _ E1)) as (x & n & _ & Lx & Bx). destruct (bytes_first s2 (Nil _ E2)) as (y & n' & _ & Ly & By). rewrite Bx, By. cbn [obind]. rewrite Lb, bytes_skipn.
    destruct (memchr_first [s1; s2] a b [x; y] (Forall_cons _ Lx (Forall_cons _ Ly (Forall_nil _))) (bytes b) 0 eq_refl) as (r & R & _). unfold text in *. rewrite R. apply Any.
  - destruct (is_empty s1) eqn:E1; [apply Any|]. destruct (is_empty s2) eqn:E2; [apply Any|]. destruct (is_empty s3); [|apply Any]. cbn [negb andb].
    destruct (bytes_first s1 (Nil _ E1)) as (x & n & _ & Lx & Bx). destruct (bytes_first s2 (Nil _ E2)) as (y & n' & _ & Ly & By). rewrite Bx, By. cbn [obind]. rewrite Lb, bytes_skipn.
    destruct (memchr_first [s1; s2; s3] a b [x; y; y] (Forall_cons _ Lx (Forall_cons _ Ly (Forall_cons _ Ly (Forall_nil _)))) (bytes b) 0 eq_refl) as (r & R & _). unfold text in *. rewrite R. apply Any.
Qed.
Print Assumptions C92_no_panic.
(** In "Grüße, Welt" the first of "W" and "ß" is at 4 (after three characters and four bytes). *)
Example C92_ex : let s := lit "Gr" ++ [252%N; 223%N] ++ lit "e, Welt" in
  Forall (fun t => t <> []) [lit "W"; [223%N]] /\ skip_until_memchr (lit "Gr" ++ ([252%N; 223%N] ++ lit "e, Welt")) (blen (lit "Gr")) [lit "W"; [223%N]] = Ret (true, 4) /\
  skip_until_memchr s 0 [lit "W"] = Ret (true, 9) /\ skip_until_memchr s 0 [lit "w"; lit "x"] = Ret (false, blen s) /\ skip_until_memchr s 0 [lit "x"; lit "W"; lit ""] = Ret (true, 9).
Proof. split; [repeat constructor; discriminate|vm_compute; auto]. Qed.

(** The empty string is everywhere, but it is not found at the end by one and is overlooked by the other if it is the third of three. *)
Theorem C92_empty_refuted :
  (exists a b strings, skip_until (a ++ b) (blen a) strings = (true, blen a) /\ skip_until_memchr (a ++ b) (blen a) strings = Ret (false, blen (a ++ b)) /\ b <> []) /\
  (exists a strings, skip_until a (blen a) strings = (false, blen a) /\ skip_until_memchr a (blen a) strings = Ret (true, blen a)).
Proof.
  split.
  - exists [], (lit "ab"), [lit "x"; lit "y"; lit ""]. vm_compute. repeat split. discriminate.
  - exists (lit "ab"), [lit ""]. vm_compute. auto.
Qed.
Print Assumptions C92_empty_refuted.
