(** Lemmas about texts, offsets and the UTF-8 encoding. *)
From Coq Require Import List ZArith NArith Arith Bool Lia ZifyBool ZifyNat ZifyN.
From Verif Require Import Model_Text.
Import ListNotations.



Lemma len_utf8_pos : forall c, 1 <= len_utf8 c <= 4.
Proof.
  intros c. unfold len_utf8.
  destruct (c <? 128)%N; [lia|]. destruct (c <? 2048)%N; [lia|].
  destruct (c <? 65536)%N; lia.
Qed.

Lemma encode_length : forall c, length (encode_utf8 c) = len_utf8 c.
Proof.
  intros c. unfold encode_utf8, len_utf8.
  destruct (c <? 128)%N; [reflexivity|]. destruct (c <? 2048)%N; [reflexivity|].
  destruct (c <? 65536)%N; reflexivity.
Qed.

Lemma bytes_length : forall s, length (bytes s) = blen s.
Proof.
  induction s as [|c s IH]; [reflexivity|].
  cbn [bytes flat_map blen]. rewrite app_length, encode_length. unfold bytes in IH. lia.
Qed.

Lemma bytes_app : forall a b, bytes (a ++ b) = bytes a ++ bytes b.
Proof. intros a b. unfold bytes. apply flat_map_app. Qed.

Lemma blen_app : forall a b, blen (a ++ b) = blen a + blen b.
Proof.
  induction a as [|c a IH]; intros b; [reflexivity|].
  cbn [app blen]. rewrite IH. lia.
Qed.

Lemma blen_rev : forall a, blen (rev a) = blen a.
Proof.
  induction a as [|c a IH]; [reflexivity|].
  cbn [rev blen]. rewrite blen_app, IH. cbn [blen]. lia.
Qed.

Lemma blen_zero : forall s, blen s = 0 -> s = [].
Proof.
  intros [|c s] H; [reflexivity|]. cbn [blen] in H.
  pose proof (len_utf8_pos c). lia.
Qed.

Lemma length_le_blen : forall s, length s <= blen s.
Proof.
  induction s as [|c s IH]; [cbn; lia|]. cbn [length blen].
  pose proof (len_utf8_pos c). lia.
Qed.

Lemma cons_eq : forall (A : Type) (a b : A) x y, a :: x = b :: y -> a = b /\ x = y.
Proof. intros A a b x y H. inversion H. auto. Qed.

Ltac Zify.zify_post_hook ::= Z.div_mod_to_equations.
(** The prefix property of UTF-8. *)
Lemma encode_prefix : forall c d x y,
  encode_utf8 c ++ x = encode_utf8 d ++ y -> c = d.
Proof.
  intros c d x y H.
  unfold encode_utf8 in H.
  destruct (c <? 128)%N eqn:C1; [|destruct (c <? 2048)%N eqn:C2; [|destruct (c <? 65536)%N eqn:C3]];
  (destruct (d <? 128)%N eqn:D1; [|destruct (d <? 2048)%N eqn:D2; [|destruct (d <? 65536)%N eqn:D3]]);
  cbn [app] in H;
  repeat match goal with
  | E : _ :: _ = _ :: _ |- _ => apply cons_eq in E; destruct E
  end; try lia.
Qed.

Ltac Zify.zify_post_hook ::= idtac.

Lemma bytes_prefix : forall l s,
  (exists y, bytes s = bytes l ++ y) -> exists r, s = l ++ r.
Proof.
  induction l as [|c l IH]; intros s [y Hy].
  - exists s. reflexivity.
  - destruct s as [|d s].
    + cbn in Hy. assert (L : length (encode_utf8 c) = 0).
      { apply (f_equal (@length _)) in Hy. rewrite !app_length in Hy. cbn in Hy. lia. }
      rewrite encode_length in L. pose proof (len_utf8_pos c). lia.
    + cbn [bytes flat_map] in Hy. rewrite <- app_assoc in Hy.
      assert (E : d = c) by (eapply encode_prefix; eauto). subst d.
      apply app_inv_head in Hy.
      destruct (IH s) as [r Hr]; [exists y; exact Hy|].
      exists r. cbn. rewrite Hr. reflexivity.
Qed.

Lemma bytes_eqb_eq : forall x y, bytes_eqb x y = true <-> x = y.
Proof.
  induction x as [|a x IH]; intros [|b y]; cbn; split; intro H; try discriminate; try reflexivity.
  - apply andb_true_iff in H as [H1 H2]. apply N.eqb_eq in H1. apply IH in H2. congruence.
  - inversion H; subst. rewrite N.eqb_refl. cbn. apply IH. reflexivity.
Qed.

Lemma text_eqb_eq : forall x y, text_eqb x y = true <-> x = y.
Proof.
  induction x as [|a x IH]; intros [|b y]; cbn; split; intro H; try discriminate; try reflexivity.
  - apply andb_true_iff in H as [H1 H2]. apply N.eqb_eq in H1. apply IH in H2. congruence.
  - inversion H; subst. rewrite N.eqb_refl. cbn. apply IH. reflexivity.
Qed.

Lemma get_from_app : forall a b, get_from (a ++ b) (blen a) = Some b.
Proof.
  induction a as [|c a IH]; intros b.
  - destruct b; reflexivity.
  - cbn [app blen]. cbn [get_from].
    pose proof (len_utf8_pos c).
    destruct (len_utf8 c + blen a) eqn:E; [lia|]. rewrite <- E.
    destruct (len_utf8 c <=? len_utf8 c + blen a) eqn:L; [|lia].
    replace (len_utf8 c + blen a - len_utf8 c) with (blen a) by lia. apply IH.
Qed.

Lemma get_from_zero : forall s, get_from s 0 = Some s.
Proof. intros [|c s]; reflexivity. Qed.

Lemma get_from_inv : forall s n b, get_from s n = Some b -> exists a, s = a ++ b /\ blen a = n.
Proof.
  induction s as [|c s IH]; intros n b H.
  - cbn in H. destruct n; [|discriminate]. inversion H; subst. exists []. auto.
  - cbn [get_from] in H. destruct n as [|n].
    + inversion H; subst. exists []. auto.
    + destruct (len_utf8 c <=? S n) eqn:L; [|discriminate].
      destruct (IH _ _ H) as [a [Ha Hb]]. exists (c :: a).
      cbn [app blen]. split; [congruence|lia].
Qed.

Lemma get_to_app : forall a b, get_to (a ++ b) (blen a) = Some a.
Proof.
  induction a as [|c a IH]; intros b.
  - destruct b; reflexivity.
  - cbn [app blen]. cbn [get_to].
    pose proof (len_utf8_pos c).
    destruct (len_utf8 c + blen a) eqn:E; [lia|]. rewrite <- E.
    destruct (len_utf8 c <=? len_utf8 c + blen a) eqn:L; [|lia].
    replace (len_utf8 c + blen a - len_utf8 c) with (blen a) by lia. rewrite IH. reflexivity.
Qed.

Lemma get_to_inv : forall s n a, get_to s n = Some a -> exists b, s = a ++ b /\ blen a = n.
Proof.
  induction s as [|c s IH]; intros n a H.
  - cbn in H. destruct n; [|discriminate]. inversion H; subst. exists []. auto.
  - cbn [get_to] in H. destruct n as [|n].
    + inversion H; subst. exists (c :: s). auto.
    + destruct (len_utf8 c <=? S n) eqn:L; [|discriminate].
      destruct (get_to s (S n - len_utf8 c)) as [p|] eqn:E; [|discriminate].
      inversion H; subst. destruct (IH _ _ E) as [b [Hb Hl]]. exists b.
      cbn [app blen]. split; [congruence|lia].
Qed.

Lemma get_range_app : forall a b c, get_range (a ++ b ++ c) (blen a) (blen (a ++ b)) = Some b.
Proof.
  intros a b c. unfold get_range. rewrite blen_app.
  destruct (blen a <=? blen a + blen b) eqn:L; [|lia].
  rewrite get_from_app. replace (blen a + blen b - blen a) with (blen b) by lia.
  apply get_to_app.
Qed.

Lemma get_range_inv : forall s i j b,
  get_range s i j = Some b -> exists a c, s = a ++ b ++ c /\ blen a = i /\ blen (a ++ b) = j.
Proof.
  intros s i j b H. unfold get_range in H.
  destruct (i <=? j) eqn:L; [|discriminate].
  destruct (get_from s i) as [r|] eqn:E; [|discriminate].
  destruct (get_from_inv _ _ _ E) as [a [Ha Hl]].
  destruct (get_to_inv _ _ _ H) as [c [Hc Hm]].
  exists a, c. rewrite blen_app. subst r. repeat split; [assumption|assumption|lia].
Qed.

(** Uniqueness of the split at an offset. *)
Lemma split_unique : forall a b a' b',
  a ++ b = a' ++ b' -> blen a = blen a' -> a = a' /\ b = b'.
Proof.
  intros a b a' b' H L.
  pose proof (get_from_app a b) as F. pose proof (get_to_app a b) as T.
  rewrite H, L in F, T. rewrite get_from_app in F. rewrite get_to_app in T.
  inversion F; inversion T; auto.
Qed.

Lemma valid_app : forall a b, valid_text (a ++ b) <-> valid_text a /\ valid_text b.
Proof. intros a b. unfold valid_text. apply Forall_app. Qed.

Lemma valid_rev : forall a, valid_text a -> valid_text (rev a).
Proof. intros a H. unfold valid_text. apply Forall_rev. exact H. Qed.

Lemma split_compare : forall a b a' b',
  a ++ b = a' ++ b' -> blen a <= blen a' -> exists m, a' = a ++ m /\ b = m ++ b'.
Proof.
  induction a as [|c a IH]; intros b a' b' H L.
  - exists a'. auto.
  - destruct a' as [|c' a'].
    + cbn [blen] in L. pose proof (len_utf8_pos c). lia.
    + cbn [app] in H. inversion H; subst. cbn [blen] in L.
      destruct (IH b a' b' H2) as [m [H3 H4]]; [lia|].
      exists m. cbn. split; [congruence|exact H4].
Qed.

Lemma bytes_skipn : forall a b, skipn (blen a) (bytes (a ++ b)) = bytes b.
Proof.
  intros a b. rewrite bytes_app, <- bytes_length, skipn_app, skipn_all, Nat.sub_diag. reflexivity.
Qed.

Lemma bytes_inj : forall x y, bytes x = bytes y -> x = y.
Proof.
  intros x y H.
  destruct (bytes_prefix x y) as [r Hr].
  { exists []. rewrite app_nil_r. auto. }
  subst y. rewrite bytes_app in H.
  assert (L : blen r = 0).
  { apply (f_equal (@length _)) in H. rewrite app_length, !bytes_length in H. lia. }
  apply blen_zero in L. subst. rewrite app_nil_r. reflexivity.
Qed.

(** Byte slices of an encoded text starting at a boundary. *)
Lemma bytes_get_prefix : forall a b l,
  bytes_get (bytes (a ++ b)) (blen a) (blen a + blen l) = Some (bytes l) <-> exists r, b = l ++ r.
Proof.
  intros a b l. unfold bytes_get. rewrite bytes_length, blen_app.
  destruct (blen a <=? blen a + blen l) eqn:L1; [|lia]. cbn [andb].
  destruct (blen a + blen l <=? blen a + blen b) eqn:L2.
  - rewrite bytes_skipn. replace (blen a + blen l - blen a) with (blen l) by lia.
    split.
    + intro H. inversion H as [H1]. apply bytes_prefix.
      exists (skipn (blen l) (bytes b)). rewrite <- H1.
      symmetry. apply firstn_skipn.
    + intros [r ->]. rewrite bytes_app, <- bytes_length, firstn_app, firstn_all, Nat.sub_diag.
      cbn. rewrite app_nil_r. reflexivity.
  - split; [discriminate|]. intros [r ->]. rewrite blen_app in L2. lia.
Qed.

(** ASCII folding commutes with encoding. *)
Lemma byte_lower_high : forall b, (128 <= b)%N -> byte_lower b = b.
Proof.
  intros b H. unfold byte_lower.
  destruct ((65 <=? b) && (b <=? 90))%N eqn:E; [lia|reflexivity].
Qed.

Lemma map_byte_lower_encode : forall c, map byte_lower (encode_utf8 c) = encode_utf8 (byte_lower c).
Proof.
  intros c. destruct (c <? 128)%N eqn:C.
  - assert (D : (byte_lower c <? 128)%N = true).
    { unfold byte_lower. destruct ((65 <=? c) && (c <=? 90))%N eqn:E; lia. }
    unfold encode_utf8. rewrite C, D. reflexivity.
  - rewrite (byte_lower_high c) by lia. unfold encode_utf8. rewrite C.
    destruct (c <? 2048)%N; [|destruct (c <? 65536)%N]; cbn [map];
    rewrite !byte_lower_high by lia; reflexivity.
Qed.

Lemma map_byte_lower_bytes : forall s, map byte_lower (bytes s) = bytes (map byte_lower s).
Proof.
  induction s as [|c s IH]; [reflexivity|].
  cbn [map bytes flat_map]. rewrite map_app, map_byte_lower_encode.
  unfold bytes in IH. rewrite IH. reflexivity.
Qed.

Lemma eq_ignore_ascii_case_spec : forall x y,
  eq_ignore_ascii_case x y = true <-> map byte_lower x = map byte_lower y.
Proof.
  intros x y. unfold eq_ignore_ascii_case. rewrite bytes_eqb_eq, !map_byte_lower_bytes.
  split; [apply bytes_inj|congruence].
Qed.

Lemma len_utf8_lower : forall c, len_utf8 (byte_lower c) = len_utf8 c.
Proof.
  intros c. rewrite <- !encode_length, <- map_byte_lower_encode, map_length. reflexivity.
Qed.

Lemma blen_lower : forall s, blen (map byte_lower s) = blen s.
Proof.
  induction s as [|c s IH]; [reflexivity|]. cbn [map blen]. rewrite len_utf8_lower, IH. reflexivity.
Qed.
