(** Lemmas about Model_Span. *)
From Coq Require Import List ZArith NArith Arith Bool Lia ZifyBool ZifyNat ZifyN.
From Verif Require Import Model_Text Model_Position Model_Span Spec_Text Spec_Span Proof_Text Proof_Position.
Import ListNotations.

Lemma get_range_iff : forall s i j,
  (exists m, get_range s i j = Some m) <-> i <= j /\ boundary s i /\ boundary s j.
Proof.
  intros s i j. split.
  - intros [m H]. apply get_range_inv in H as [a [c [-> [H1 H2]]]]. subst. split; [rewrite blen_app; lia|]. split.
    + exists a, (m ++ c). auto.
    + exists (a ++ m), c. rewrite <- app_assoc. auto.
  - intros [L [[a [b [-> ->]]] [x [y [E ->]]]]].
    destruct (split_compare a b x y E L) as [m [-> ->]]. exists m.
    apply get_range_app.
Qed.

Lemma span_new_some : forall addr s i j sp,
  span_new addr s i j = Some sp <->
  (i <= j /\ boundary s i /\ boundary s j) /\ sp = mkSpan addr s i j.
Proof.
  intros addr s i j sp. unfold span_new. rewrite <- get_range_iff.
  destruct (get_range s i j) as [m|] eqn:E.
  - split; [intro H; inversion H; split; [exists m; reflexivity|reflexivity]|].
    intros [_ ->]. reflexivity.
  - split; [discriminate|]. intros [[m H] _]. discriminate.
Qed.

Lemma span_new_split : forall addr a m r,
  span_new addr (a ++ m ++ r) (blen a) (blen (a ++ m)) =
  Some (mkSpan addr (a ++ m ++ r) (blen a) (blen (a ++ m))).
Proof.
  intros. unfold span_new. rewrite get_range_app. reflexivity.
Qed.

Lemma span_new_iff : forall addr s i j,
  (exists sp, span_new addr s i j = Some sp) <-> i <= j /\ boundary s i /\ boundary s j.
Proof.
  intros. split.
  - intros [sp H]. apply span_new_some in H. tauto.
  - intros H. exists (mkSpan addr s i j). apply span_new_some. auto.
Qed.

Lemma as_str_split : forall addr a m r,
  as_str (mkSpan addr (a ++ m ++ r) (blen a) (blen (a ++ m))) = Ret m.
Proof.
  intros. unfold as_str. cbn [sp_input sp_start sp_end].
  rewrite get_range_app. reflexivity.
Qed.

Lemma split_split : forall addr a m r,
  split (mkSpan addr (a ++ m ++ r) (blen a) (blen (a ++ m))) =
  Ret (mkPosition addr (a ++ m ++ r) (blen a), mkPosition addr (a ++ m ++ r) (blen (a ++ m))).
Proof.
  intros. unfold split, position_new_unchecked. cbn [sp_input sp_start sp_end sp_addr].
  rewrite get_from_app. cbn [obind]. rewrite get_from_mid. reflexivity.
Qed.

Lemma start_pos_split : forall addr a m r,
  start_pos (mkSpan addr (a ++ m ++ r) (blen a) (blen (a ++ m))) =
  Ret (mkPosition addr (a ++ m ++ r) (blen a)).
Proof.
  intros. unfold start_pos, position_new_unchecked. cbn [sp_input sp_start sp_end sp_addr].
  rewrite get_from_app. reflexivity.
Qed.

Lemma end_pos_split : forall addr a m r,
  end_pos (mkSpan addr (a ++ m ++ r) (blen a) (blen (a ++ m))) =
  Ret (mkPosition addr (a ++ m ++ r) (blen (a ++ m))).
Proof.
  intros. unfold end_pos, position_new_unchecked. cbn [sp_input sp_start sp_end sp_addr].
  rewrite get_from_mid. reflexivity.
Qed.

Lemma span_get_unfold : forall addr a m r lo hi,
  span_get (mkSpan addr (a ++ m ++ r) (blen a) (blen (a ++ m))) lo hi =
  let (i, j) := range_of (blen m) lo hi in
  match get_range m i j with
  | Some _ => Ret (Some (mkSpan addr (a ++ m ++ r) (blen a + i) (blen a + j)))
  | None => Ret None
  end.
Proof.
  intros. unfold span_get. rewrite as_str_split. cbn [obind sp_addr sp_input sp_start sp_end range_of].
  destruct lo, hi; rewrite ?Nat.add_1_r; reflexivity.
Qed.

Lemma merge_comm : forall addr s i j k l,
  merge_spans (mkSpan addr s i j) (mkSpan addr s k l) =
  merge_spans (mkSpan addr s k l) (mkSpan addr s i j).
Proof.
  intros. unfold merge_spans. cbn [sp_start sp_end sp_addr sp_input].
  rewrite (Nat.min_comm i k), (Nat.max_comm j l), andb_comm. reflexivity.
Qed.

Lemma merge_some : forall addr s i j k l,
  i <= j -> boundary s i -> boundary s j -> k <= l -> boundary s k -> boundary s l ->
  (k <= j /\ i <= l ->
   merge_spans (mkSpan addr s i j) (mkSpan addr s k l) =
   Some (mkSpan addr s (Nat.min i k) (Nat.max j l))) /\
  (~ (k <= j /\ i <= l) -> merge_spans (mkSpan addr s i j) (mkSpan addr s k l) = None).
Proof.
  intros addr s i j k l Hij Hi Hj Hkl Hk Hl. unfold merge_spans. cbn [sp_start sp_end sp_addr sp_input].
  split; intros H.
  - destruct ((k <=? j) && (i <=? l)) eqn:E; [|lia].
    apply span_new_some. split; [|reflexivity].
    split; [lia|]. split.
    + destruct (Nat.min_spec i k) as [[_ ->]|[_ ->]]; assumption.
    + destruct (Nat.max_spec j l) as [[_ ->]|[_ ->]]; assumption.
  - destruct ((k <=? j) && (i <=? l)) eqn:E; [lia|reflexivity].
Qed.

(** *** Lines of a span *)

Lemma concat_split_lines : forall s, concat (split_lines s) = s.
Proof.
  induction s as [|c s IH]; [reflexivity|]. cbn [split_lines].
  destruct (N.eq_dec c LF) as [->|N].
  - cbn. rewrite IH. reflexivity.
  - destruct (split_lines s) as [|l ls]; cbn in *; rewrite <- IH; reflexivity.
Qed.

Lemma split_lines_lf : forall y r, ~ In LF y ->
  split_lines (y ++ LF :: r) = (y ++ [LF]) :: split_lines r.
Proof.
  induction y as [|c y IH]; intros r H.
  - cbn [app split_lines]. destruct (N.eq_dec LF LF); [reflexivity|congruence].
  - cbn [app split_lines]. rewrite IH by (intro I; apply H; right; exact I).
    destruct (N.eq_dec c LF) as [->|N]; [exfalso; apply H; left; reflexivity|reflexivity].
Qed.

Lemma split_lines_nolf : forall y, ~ In LF y -> y <> [] -> split_lines y = [y].
Proof.
  induction y as [|c y IH]; intros H N; [congruence|].
  cbn [split_lines]. destruct (N.eq_dec c LF) as [->|Nc]; [exfalso; apply H; left; reflexivity|].
  destruct y as [|d y]; [reflexivity|]. rewrite IH; [reflexivity| |discriminate].
  intro I. apply H. right. exact I.
Qed.

Lemma split_lines_app : forall x l, ends_line x -> split_lines (x ++ l) = split_lines x ++ split_lines l.
Proof.
  intros x l [->|[x' ->]]; [reflexivity|].
  rewrite <- app_assoc. cbn [app].
  induction x' as [|c x' IH].
  - cbn. reflexivity.
  - cbn [app split_lines]. rewrite IH. destruct (N.eq_dec c LF); [reflexivity|].
    destruct (split_lines (x' ++ [LF])) as [|l0 ls] eqn:E; [|reflexivity].
    exfalso. apply (f_equal (@concat _)) in E. rewrite concat_split_lines in E.
    destruct x'; discriminate.
Qed.

Lemma ranges_from_app : forall l1 l2 o,
  ranges_from o (l1 ++ l2) = ranges_from o l1 ++ ranges_from (o + blen (concat l1)) l2.
Proof.
  induction l1 as [|l l1 IH]; intros l2 o.
  - cbn. rewrite Nat.add_0_r. reflexivity.
  - cbn [app ranges_from concat]. rewrite IH, blen_app, Nat.add_assoc. reflexivity.
Qed.

Lemma ranges_from_lo : forall ls o p q, In (p, q) (ranges_from o ls) -> o <= p.
Proof.
  induction ls as [|l ls IH]; intros o p q H; [destruct H|].
  cbn in H. destruct H as [H|H]; [inversion H; subst; lia|]. apply IH in H. lia.
Qed.

Lemma ranges_from_hi : forall ls o p q, In (p, q) (ranges_from o ls) -> q <= o + blen (concat ls).
Proof.
  induction ls as [|l ls IH]; intros o p q H; [destruct H|].
  cbn [ranges_from concat] in *. rewrite blen_app.
  destruct H as [H|H]; [inversion H; subst; lia|]. apply IH in H. lia.
Qed.

Lemma filter_none : forall (A : Type) (f : A -> bool) l,
  (forall x, In x l -> f x = false) -> filter f l = [].
Proof.
  induction l as [|x l IH]; intros H; [reflexivity|]. cbn. rewrite (H x) by (left; reflexivity).
  apply IH. intros y I. apply H. right. exact I.
Qed.

Lemma filter_all : forall (A : Type) (f : A -> bool) l,
  (forall x, In x l -> f x = true) -> filter f l = l.
Proof.
  induction l as [|x l IH]; intros H; [reflexivity|]. cbn. rewrite (H x) by (left; reflexivity).
  f_equal. apply IH. intros y I. apply H. right. exact I.
Qed.

(** One step of the iteration, at a position [x ++ y] of a line that starts after [x]. *)
Lemma lines_next_step : forall sp x y b z,
  sp_input sp = (x ++ y) ++ b -> ends_line x -> ~ In LF y -> upto_first_lf b z -> b <> [] ->
  blen (x ++ y) <= sp_end sp ->
  lines_next sp (blen (x ++ y)) =
  (Some (span_of sp (blen x, blen (x ++ y ++ z))), blen (x ++ y ++ z)).
Proof.
  intros sp x y b z Hs Hx Hy Hz Hb Hle. unfold lines_next.
  destruct (sp_end sp <? blen (x ++ y)) eqn:E; [lia|].
  rewrite Hs.
  assert (P : position_new ((x ++ y) ++ b) (blen (x ++ y)) = Some (blen (x ++ y))).
  { apply position_new_spec. exists (x ++ y), b. auto. }
  rewrite P.
  assert (Q : at_end ((x ++ y) ++ b) (blen (x ++ y)) = false).
  { unfold at_end. rewrite (blen_app (x ++ y) b). pose proof (blen_pos b Hb). lia. }
  rewrite Q. rewrite (find_line_start_spec (x ++ y) b y x eq_refl Hx Hy).
  rewrite (find_line_end_spec (x ++ y) b z Hz). rewrite <- (app_assoc x y z).
  assert (R : exists r, b = z ++ r).
  { destruct Hz as [[z' [r [_ [_ ->]]]]|[-> _]]; [exists r; reflexivity|].
    exists []. rewrite app_nil_r. reflexivity. }
  destruct R as [r ->].
  f_equal. unfold span_of. cbn [fst snd]. rewrite Hs.
  replace ((x ++ y) ++ z ++ r) with (x ++ (y ++ z) ++ r) by (rewrite !app_assoc; reflexivity).
  apply span_new_split.
Qed.

Lemma lines_next_stop : forall sp pos,
  sp_end sp < pos \/ pos = blen (sp_input sp) -> lines_next sp pos = (None, pos).
Proof.
  intros sp pos H. unfold lines_next. destruct (sp_end sp <? pos) eqn:E; [reflexivity|].
  destruct H as [H|H]; [lia|].
  destruct (position_new (sp_input sp) pos) as [p|] eqn:P; [|reflexivity].
  assert (p = pos) as ->. { unfold position_new in P. destruct (get_from (sp_input sp) pos); congruence. }
  assert (Q : at_end (sp_input sp) pos = true) by (unfold at_end; lia). rewrite Q. reflexivity.
Qed.

Lemma lines_loop_at_start : forall sp fuel x b,
  sp_input sp = x ++ b -> ends_line x -> length b < fuel ->
  lines_loop fuel sp (blen x) =
  Ret (map (span_of sp)
         (filter (fun pq => fst pq <=? sp_end sp) (ranges_from (blen x) (split_lines b)))).
Proof.
  intros sp. induction fuel as [|k IH]; intros x b Hs Hx Hf; [lia|].
  cbn [lines_loop].
  destruct (Nat.le_gt_cases (blen x) (sp_end sp)) as [Le|Gt].
  2:{ rewrite lines_next_stop by (left; exact Gt). rewrite filter_none; [reflexivity|].
      intros [p q] I. apply ranges_from_lo in I. cbn [fst]. lia. }
  destruct b as [|c b'].
  { rewrite app_nil_r in Hs. rewrite lines_next_stop by (right; rewrite Hs; reflexivity). reflexivity. }
  destruct (upto_first_lf_exists (c :: b')) as [z Hz].
  pose proof (lines_next_step sp x [] (c :: b') z) as St. rewrite app_nil_r in St. cbn [app] in St.
  rewrite St; [clear St|exact Hs|exact Hx|intros []|exact Hz|discriminate|exact Le].
  destruct Hz as [[z' [r [-> [Hn E]]]]|[-> Hn]].
  - rewrite (IH (x ++ z' ++ [LF]) r).
    + cbn [obind]. rewrite E. rewrite <- app_assoc. cbn [app].
      rewrite split_lines_lf by exact Hn. cbn [ranges_from filter fst].
      destruct (blen x <=? sp_end sp) eqn:L; [|lia]. cbn [map].
      rewrite (blen_app x (z' ++ [LF])). reflexivity.
    + rewrite Hs, E, <- !app_assoc. reflexivity.
    + right. exists (x ++ z'). rewrite app_assoc. reflexivity.
    + rewrite E in Hf. rewrite !app_length in Hf. cbn in Hf. lia.
  - assert (Hk : exists k', k = S k') by (cbn in Hf; destruct k; [lia|eauto]).
    destruct Hk as [k' ->]. cbn [lines_loop].
    rewrite lines_next_stop by (right; rewrite Hs; reflexivity). cbn [obind].
    rewrite split_lines_nolf; [|exact Hn|discriminate]. cbn [ranges_from filter fst].
    destruct (blen x <=? sp_end sp) eqn:L; [|lia]. cbn [map].
    rewrite (blen_app x (c :: b')). reflexivity.
Qed.

Lemma lines_span_spec : forall addr a m r fuel,
  let s := a ++ m ++ r in
  let sp := mkSpan addr s (blen a) (blen (a ++ m)) in
  length s < fuel ->
  lines_span fuel sp =
  Ret (map (span_of sp)
         (filter (fun pq => (blen a <? snd pq) && (fst pq <=? blen (a ++ m))) (line_ranges s))).
Proof.
  intros addr a m r fuel s sp Hf. unfold lines_span.
  destruct (after_last_lf_exists a) as [y [x [Ea [Hx Hy]]]].
  assert (Hs : s = x ++ y ++ m ++ r) by (unfold s; rewrite Ea, <- app_assoc; reflexivity).
  unfold line_ranges. rewrite Hs at 1. rewrite (split_lines_app x) by exact Hx.
  rewrite ranges_from_app, concat_split_lines, filter_app. cbn [Nat.add].
  rewrite (filter_none _ _ (ranges_from 0 (split_lines x))).
  2:{ intros [p q] I. apply ranges_from_hi in I. rewrite concat_split_lines in I. cbn [snd fst].
      rewrite Ea, blen_app. lia. }
  cbn [app].
  assert (Hend : sp_end sp = blen (a ++ m)) by reflexivity.
  assert (Hle : blen a <= blen (a ++ m)) by (rewrite blen_app; lia).
  destruct fuel as [|k]; [lia|]. cbn [lines_loop]. change (sp_start sp) with (blen a).
  destruct (list_eq_dec N.eq_dec (m ++ r) []) as [E0|N0].
  - (* the span is empty and at the end of the input *)
    assert (Hs' : s = a) by (unfold s; rewrite E0, app_nil_r; reflexivity).
    rewrite lines_next_stop by (right; cbn [sp_input sp]; rewrite Hs'; reflexivity).
    rewrite filter_none; [reflexivity|].
    intros [p q] I. apply ranges_from_hi in I. rewrite concat_split_lines, E0, app_nil_r in I.
    cbn [fst snd]. rewrite Ea, blen_app. lia.
  - destruct (upto_first_lf_exists (m ++ r)) as [z Hz].
    assert (St : lines_next sp (blen a) =
                 (Some (span_of sp (blen x, blen (x ++ y ++ z))), blen (x ++ y ++ z))).
    { rewrite Ea. apply (lines_next_step sp x y (m ++ r) z); auto.
      - cbn [sp_input sp]. unfold s. rewrite Ea. reflexivity.
      - rewrite <- Ea, Hend. exact Hle. }
    rewrite St. clear St.
    destruct Hz as [[z' [r' [-> [Hn E]]]]|[-> Hn]].
    + rewrite (lines_loop_at_start sp k (x ++ y ++ z' ++ [LF]) r').
      * cbn [obind].
        assert (Sp : split_lines (y ++ m ++ r) = ((y ++ z') ++ [LF]) :: split_lines r').
        { rewrite E. rewrite <- split_lines_lf by (intro I; apply in_app_or in I; tauto).
          f_equal. rewrite <- !app_assoc. reflexivity. }
        rewrite Sp. cbn [ranges_from filter fst snd].
        assert (B1 : (blen a <? blen x + blen ((y ++ z') ++ [LF])) && (blen x <=? blen (a ++ m)) = true).
        { rewrite Ea, !blen_app. cbn [blen]. change (len_utf8 LF) with 1. lia. }
        rewrite B1. cbn [map]. rewrite Hend.
        assert (Ex : blen (x ++ y ++ z' ++ [LF]) = blen x + blen ((y ++ z') ++ [LF])).
        { rewrite blen_app, <- app_assoc. reflexivity. }
        rewrite Ex. do 3 f_equal. apply filter_ext_in. intros [p q] I.
        cbn [fst snd].
        assert (q > blen a).
        { assert (Hq : p <= q).
          { clear - I. revert I. generalize (blen x + blen ((y ++ z') ++ [LF])) as o.
            induction (split_lines r') as [|l ls IH]; intros o I; [destruct I|].
            destruct I as [I|I]; [inversion I; lia|]. exact (IH _ I). }
          apply ranges_from_lo in I. rewrite Ea. rewrite !blen_app in *. cbn [blen] in *.
          change (len_utf8 LF) with 1 in *. lia. }
        lia.
      * cbn [sp_input sp]. rewrite Hs, E, <- !app_assoc. reflexivity.
      * right. exists (x ++ y ++ z'). rewrite <- !app_assoc. reflexivity.
      * rewrite Hs, E in Hf. rewrite !app_length in Hf. cbn in Hf. lia.
    + assert (Hk : exists k', k = S k').
      { rewrite Hs in Hf. rewrite app_length, app_length in Hf.
        assert (1 <= length (m ++ r)) by (destruct (m ++ r); [contradiction N0; reflexivity|cbn; lia]).
        destruct k; [lia|eauto]. }
      destruct Hk as [k' ->]. cbn [lines_loop].
      rewrite lines_next_stop by (right; cbn [sp_input sp]; rewrite Hs; reflexivity). cbn [obind].
      rewrite split_lines_nolf.
      2:{ intro I. apply in_app_or in I. tauto. }
      2:{ destruct y; [exact N0|discriminate]. }
      cbn [ranges_from filter fst snd].
      assert (B1 : (blen a <? blen x + blen (y ++ m ++ r)) && (blen x <=? blen (a ++ m)) = true).
      { pose proof (blen_pos _ N0). rewrite Ea, !blen_app in *. lia. }
      rewrite B1. cbn [map]. rewrite (blen_app x (y ++ m ++ r)). reflexivity.
Qed.

Lemma split_lines_shape : forall s l, In l (split_lines s) ->
  l <> [] /\ forall l1 c l2, l = l1 ++ c :: l2 -> c = LF -> l2 = [].
Proof.
  induction s as [|c s IH]; intros l H; [destruct H|].
  cbn [split_lines] in H. destruct (N.eq_dec c LF) as [->|N].
  - destruct H as [<-|H]; [|apply IH; exact H]. split; [discriminate|].
    intros [|d l1] e l2 E _; inversion E; [reflexivity|]. destruct l1; discriminate.
  - destruct (split_lines s) as [|l0 ls].
    + destruct H as [<-|[]]. split; [discriminate|]. intros [|d l1] e l2 E Ee; inversion E; [reflexivity|].
      destruct l1; discriminate.
    + destruct H as [<-|H]; [|apply IH; right; exact H]. split; [discriminate|].
      intros [|d l1] e l2 E Ee; inversion E; [congruence|].
      destruct (IH l0 (or_introl eq_refl)) as [_ H]. apply (H l1 e l2); auto.
Qed.

(** *** Forms used by the theorems *)

Lemma span_get_full : forall addr a m r lo hi i j,
  range_of (blen m) lo hi = (i, j) ->
  let sp := mkSpan addr (a ++ m ++ r) (blen a) (blen (a ++ m)) in
  (i <= j /\ boundary m i /\ boundary m j ->
     exists x t y, m = x ++ t ++ y /\ i = blen x /\ j = blen (x ++ t) /\
       exists sub, span_get sp lo hi = Ret (Some sub) /\ as_str sub = Ret t /\
         sub = mkSpan addr (a ++ m ++ r) (blen (a ++ x)) (blen (a ++ x ++ t))) /\
  (~ (i <= j /\ boundary m i /\ boundary m j) -> span_get sp lo hi = Ret None).
Proof.
  intros addr a m r lo hi i j E sp. unfold sp. rewrite span_get_unfold, E.
  rewrite <- get_range_iff. split.
  - intros [t H]. rewrite H. apply get_range_inv in H as [x [y [-> [<- <-]]]].
    exists x, t, y. repeat split; auto. eexists. split; [reflexivity|].
    rewrite <- blen_app. split.
    + unfold as_str. cbn [sp_input sp_start sp_end].
      replace (a ++ (x ++ t ++ y) ++ r) with ((a ++ x) ++ t ++ (y ++ r)) by (rewrite <- !app_assoc; reflexivity).
      replace (blen a + blen (x ++ t)) with (blen ((a ++ x) ++ t)) by (rewrite !blen_app; lia).
      rewrite get_range_app. reflexivity.
    + f_equal. rewrite !blen_app. lia.
  - intros H. destruct (get_range m i j) as [t|] eqn:G; [|reflexivity]. exfalso. apply H. exists t. reflexivity.
Qed.

Lemma merge_contains : forall addr s i j k l sp,
  i <= j -> boundary s i -> boundary s j -> k <= l -> boundary s k -> boundary s l ->
  merge_spans (mkSpan addr s i j) (mkSpan addr s k l) = Some sp ->
  (sp_start sp <= i /\ sp_start sp <= k /\ j <= sp_end sp /\ l <= sp_end sp) /\
  forall i' j', i' <= i -> i' <= k -> j <= j' -> l <= j' -> i' <= sp_start sp /\ sp_end sp <= j'.
Proof.
  intros addr s i j k l sp Hij Hi Hj Hkl Hk Hl H.
  destruct (merge_some addr s i j k l Hij Hi Hj Hkl Hk Hl) as [A B].
  assert (D : (k <= j /\ i <= l) \/ ~ (k <= j /\ i <= l)) by lia.
  destruct D as [D|D]; [rewrite (A D) in H|rewrite (B D) in H; discriminate].
  inversion H; subst. cbn [sp_start sp_end]. split; [lia|]. intros; lia.
Qed.

(** The iteration yields exactly the covered lines when the span is not empty and does not end
    right after a line break. *)
Lemma lines_span_covered : forall addr a m r fuel,
  let s := a ++ m ++ r in
  let sp := mkSpan addr s (blen a) (blen (a ++ m)) in
  length s < fuel -> m <> [] -> ~ ends_line (a ++ m) ->
  lines_span fuel sp =
  Ret (map (span_of sp)
         (filter (fun pq => (blen a <? snd pq) && (fst pq <? blen (a ++ m))) (line_ranges s))).
Proof.
  intros addr a m r fuel s sp Hf Hm Hend. unfold sp, s. rewrite lines_span_spec by exact Hf.
  do 2 f_equal. apply filter_ext_in. intros [p q] I. cbn [fst snd]. f_equal.
  assert (N : p <> blen (a ++ m)); [|lia].
  intros ->. apply Hend.
  (* a line that starts at an offset starts after a line break *)
  unfold line_ranges in I.
  assert (G : forall t o p q, In (p, q) (ranges_from o (split_lines t)) ->
            exists u v, t = u ++ v /\ p = o + blen u /\ ends_line u).
  { clear. intros t. remember (length t) as n eqn:Hn. assert (Hle : length t <= n) by lia. clear Hn.
    revert t Hle. induction n as [|n IH]; intros t Hle o p q I.
    - destruct t; [destruct I|cbn in Hle; lia].
    - destruct (first_lf t) as [Hno|[b1 [b2 [-> Hb]]]].
      + destruct t as [|c t]; [destruct I|]. rewrite split_lines_nolf in I; [|exact Hno|discriminate].
        destruct I as [I|[]]. inversion I; subst. exists [], (c :: t). split; [reflexivity|].
        split; [cbn; lia|left; reflexivity].
      + rewrite split_lines_lf in I by exact Hb. destruct I as [I|I].
        * inversion I; subst. exists [], (b1 ++ LF :: b2). split; [reflexivity|].
          split; [cbn; lia|left; reflexivity].
        * destruct (IH b2) with (o := o + blen (b1 ++ [LF])) (p := p) (q := q) as [u [v [-> [-> Hu]]]]; auto.
          { rewrite app_length in Hle. cbn in Hle. lia. }
          exists (b1 ++ LF :: u), v. split; [rewrite <- app_assoc; reflexivity|]. split.
          { rewrite !blen_app. cbn [blen]. lia. }
          destruct Hu as [->|[u' ->]]; right; [exists b1; reflexivity|].
          exists (b1 ++ LF :: u'). rewrite <- app_assoc. reflexivity. }
  destruct (G _ _ _ _ I) as [u [v [E [Ep Hu]]]]. cbn [Nat.add] in Ep.
  rewrite app_assoc in E. apply split_unique in E; [|exact Ep]. destruct E as [-> _]. exact Hu.
Qed.

Lemma map_as_str_ranges : forall addr s ls x,
  s = x ++ concat ls ->
  map_as_str (map (span_of (mkSpan addr s 0 0)) (ranges_from (blen x) ls)) = Ret ls.
Proof.
  intros addr s. induction ls as [|l ls IH]; intros x Hs; [reflexivity|].
  cbn [ranges_from map map_as_str concat] in *.
  assert (A : as_str (span_of (mkSpan addr s 0 0) (blen x, blen x + blen l)) = Ret l).
  { unfold span_of. cbn [fst snd sp_addr sp_input]. rewrite Hs, <- blen_app. apply as_str_split. }
  rewrite A. cbn [obind]. rewrite <- blen_app. rewrite (IH (x ++ l)).
  - reflexivity.
  - rewrite Hs, app_assoc. reflexivity.
Qed.

(** All lines of the input through a span that covers it. *)
Lemma lines_whole : forall addr s fuel, length s < fuel ->
  lines fuel (mkSpan addr s 0 (blen s)) = Ret (split_lines s).
Proof.
  intros addr s fuel Hf. unfold lines.
  pose proof (lines_span_spec addr [] s [] fuel) as L. cbn [app blen] in L. rewrite app_nil_r in L.
  rewrite L by exact Hf. cbn [obind].
  rewrite filter_all.
  - apply (map_as_str_ranges addr s (split_lines s) []). cbn. rewrite concat_split_lines. reflexivity.
  - intros [p q] I. cbn [fst snd]. unfold line_ranges in I.
    assert (H : p < q).
    { assert (G : forall ls o, (forall l, In l ls -> l <> []) -> In (p, q) (ranges_from o ls) -> p < q).
      { clear. induction ls as [|l ls IH]; intros o H I; [destruct I|]. destruct I as [I|I].
        - inversion I; subst. pose proof (blen_pos l (H l (or_introl eq_refl))). lia.
        - apply (IH (o + blen l)); [|exact I]. intros l' I'. apply H. right. exact I'. }
      apply (G _ _ (fun l Hl => proj1 (split_lines_shape s l Hl)) I). }
    pose proof (ranges_from_hi _ _ _ _ I) as H2. rewrite concat_split_lines in H2. lia.
Qed.

Lemma lines_uncovered : exists addr a m r fuel l,
  In l (match lines fuel (mkSpan addr (a ++ m ++ r) (blen a) (blen (a ++ m))) with Ret ls => ls | _ => [] end) /\
  m = [97; 10]%N /\ a = [] /\ r = [98]%N /\ l = [98]%N.
Proof.
  exists 0%N, [], [97; 10]%N, [98]%N, 10, [98]%N. repeat split. vm_compute. right. left. reflexivity.
Qed.

Lemma span_text_full : forall addr a m r,
  let sp := mkSpan addr (a ++ m ++ r) (blen a) (blen (a ++ m)) in
  as_str sp = Ret m /\ blen m = sp_end sp - sp_start sp /\
  start_pos sp = Ret (mkPosition addr (a ++ m ++ r) (blen a)) /\
  end_pos sp = Ret (mkPosition addr (a ++ m ++ r) (blen (a ++ m))) /\
  split sp = Ret (mkPosition addr (a ++ m ++ r) (blen a), mkPosition addr (a ++ m ++ r) (blen (a ++ m))).
Proof.
  intros. unfold sp. split; [apply as_str_split|]. split.
  - cbn [sp_start sp_end]. rewrite blen_app. lia.
  - split; [apply start_pos_split|]. split; [apply end_pos_split|apply split_split].
Qed.
