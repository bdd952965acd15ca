(** Maps with texts as keys, and the bookkeeping of strings and arities. *)
From Coq Require Import String List NArith ZArith Arith Bool Lia ZifyBool ZifyNat ZifyN FinFun.
From Verif Require Import Model_Text Model_Message Model_Meta Model_Import Model_Generator Model_Output
  Spec_Message Spec_Rust Proof_Text Proof_Message.
Import ListNotations.
Open Scope list_scope.

Lemma teqb : forall x y, reflect (x = y) (text_eqb x y).
Proof.
  intros x y. destruct (text_eqb x y) eqn:E; constructor; [apply text_eqb_eq, E|].
  intro H. apply text_eqb_eq in H. congruence.
Qed.
Lemma teqb_refl : forall x, text_eqb x x = true.
Proof. intro x. apply text_eqb_eq. reflexivity. Qed.
Lemma teqb_sym : forall x y, text_eqb x y = text_eqb y x.
Proof. intros x y. destruct (teqb x y), (teqb y x); congruence. Qed.
Lemma teqb_ne : forall x y, x <> y -> text_eqb x y = false.
Proof. intros x y N. destruct (teqb x y); congruence. Qed.
Lemma text_in_spec : forall x l, reflect (In x l) (text_in x l).
Proof.
  intros x l. unfold text_in. destruct (existsb (text_eqb x) l) eqn:E; constructor.
  - apply existsb_exists in E. destruct E as (y & I & E). apply text_eqb_eq in E. subst. exact I.
  - intro I. assert (existsb (text_eqb x) l = true); [|congruence].
    apply existsb_exists. exists x. split; [exact I|apply teqb_refl].
Qed.

(** Maps. *)
Section Maps.
Context {A : Type}.
Implicit Types (l : list (text * A)) (k : text) (v : A).

Lemma lookup_in : forall l k v, lookup k l = Some v -> In (k, v) l.
Proof.
  induction l as [|(k', v') l IH]; intros k v H; [discriminate|]. cbn in H.
  destruct (teqb k k') as [->|N]; [injection H as ->; left; reflexivity|right; apply IH, H].
Qed.
Lemma lookup_none : forall l k, lookup k l = None <-> ~ In k (map fst l).
Proof.
  induction l as [|(k', v') l IH]; intros k; cbn; [split; auto|].
  destruct (teqb k k') as [->|N]; [split; [discriminate|intros H; exfalso; apply H; left; reflexivity]|].
  rewrite IH. split; intros H; [intros [E|I]; [congruence|contradiction]|intro I; apply H; right; exact I].
Qed.
Lemma lookup_remove_same : forall l k, lookup k (remove k l) = None.
Proof.
  induction l as [|(k', v') l IH]; intros k; cbn; [reflexivity|].
  destruct (text_eqb k k') eqn:E; [apply IH|]. cbn. rewrite E. apply IH.
Qed.
Lemma lookup_remove_other : forall l k k', k <> k' -> lookup k (remove k' l) = lookup k l.
Proof.
  induction l as [|(k0, v0) l IH]; intros k k' N; cbn; [reflexivity|].
  destruct (teqb k' k0) as [->|N']; cbn.
  - rewrite (teqb_ne _ _ N). apply IH, N.
  - rewrite (IH _ _ N). reflexivity.
Qed.
Lemma lookup_insert_same : forall l k v, lookup k (insert k v l) = Some v.
Proof. intros l k v. cbn. rewrite teqb_refl. reflexivity. Qed.
Lemma lookup_insert_other : forall l k k' v, k <> k' -> lookup k (insert k' v l) = lookup k l.
Proof. intros l k k' v N. cbn. rewrite (teqb_ne _ _ N). apply lookup_remove_other, N. Qed.
Lemma lookup_app : forall l l' k, lookup k (l ++ l') = match lookup k l with Some v => Some v | None => lookup k l' end.
Proof.
  induction l as [|(k', v') l IH]; intros l' k; cbn; [reflexivity|]. destruct (text_eqb k k'); [reflexivity|apply IH].
Qed.

Lemma entry_in : forall l k v, entry k l = Some v -> In (k, v) l.
Proof.
  intros l k v H. unfold entry in H.
  destruct (filter (fun kv => text_eqb k (fst kv)) l) as [|(k', v') [|? ?]] eqn:E; try discriminate.
  injection H as ->.
  assert (I : In (k', v) (filter (fun kv => text_eqb k (fst kv)) l)) by (rewrite E; left; reflexivity).
  apply filter_In in I. destruct I as (I & T). apply text_eqb_eq in T. cbn in T. subst. exact I.
Qed.
Lemma filter_absent : forall l k, ~ In k (map fst l) -> filter (fun kv => text_eqb k (fst kv)) l = [].
Proof.
  induction l as [|(k', v') l IH]; intros k N; cbn; [reflexivity|].
  destruct (teqb k k') as [->|]; [exfalso; apply N; left; reflexivity|]. apply IH. intro I. apply N. right. exact I.
Qed.
Lemma entry_unique : forall l k v, NoDup (map fst l) -> In (k, v) l -> entry k l = Some v.
Proof.
  intros l k v D I. unfold entry. induction l as [|(k', v') l IH]; [destruct I|]. inversion_clear D as [|? ? N D'].
  destruct I as [E|I]; cbn.
  - injection E as -> ->. rewrite teqb_refl, filter_absent by exact N. reflexivity.
  - destruct (teqb k k') as [->|]; [exfalso; apply N; apply (in_map fst) in I; exact I|]. apply IH; assumption.
Qed.
Lemma entry_app_r : forall l l' k, ~ In k (map fst l) -> entry k (l ++ l') = entry k l'.
Proof. intros l l' k N. unfold entry. rewrite filter_app, filter_absent by exact N. reflexivity. Qed.
Lemma entry_app_l : forall l l' k, ~ In k (map fst l') -> entry k (l ++ l') = entry k l.
Proof. intros l l' k N. unfold entry. rewrite filter_app, (filter_absent l'), app_nil_r by exact N. reflexivity. Qed.
Lemma entry_cons : forall l k v, ~ In k (map fst l) -> entry k ((k, v) :: l) = Some v.
Proof. intros l k v N. unfold entry. cbn. rewrite teqb_refl, filter_absent by exact N. reflexivity. Qed.
Lemma entry_skip : forall l k k' v, k <> k' -> entry k ((k', v) :: l) = entry k l.
Proof. intros l k k' v N. unfold entry. cbn. rewrite (teqb_ne _ _ N). reflexivity. Qed.
End Maps.

Lemma entry_map : forall {A B : Type} (f : A -> B) (l : list (text * A)) k,
  entry k (map (fun kv => (fst kv, f (snd kv))) l) = option_map f (entry k l).
Proof.
  intros A B f l k. unfold entry.
  assert (H : filter (fun kv : text * B => text_eqb k (fst kv)) (map (fun kv => (fst kv, f (snd kv))) l)
              = map (fun kv => (fst kv, f (snd kv))) (filter (fun kv => text_eqb k (fst kv)) l)).
  { induction l as [|(k', v') l IH]; cbn; [reflexivity|]. destruct (text_eqb k k'); cbn; rewrite IH; reflexivity. }
  rewrite H. destruct (filter (fun kv => text_eqb k (fst kv)) l) as [|(? & ?) [|(? & ?) ?]]; reflexivity.
Qed.

(** Different numbers have different notations. *)
Lemma decimal_inj : forall a b, decimal a = decimal b -> a = b.
Proof.
  intros a b E. destruct (decimal_spec a) as (_ & A & _). destruct (decimal_spec b) as (_ & B & _).
  rewrite E in A. lia.
Qed.

(** The tracker. *)
Definition wrapper_name (i : nat) : text := lit "W" ++ decimal i.
Lemma wrapper_name_inj : forall i j, wrapper_name i = wrapper_name j -> i = j.
Proof. intros i j E. apply decimal_inj. unfold wrapper_name in E. apply app_inv_head in E. exact E. Qed.

Definition tracker_ok (t : gtracker) : Prop :=
  (exists strings, NoDup strings /\ gt_counter t = combine strings (List.seq 0 (length strings))) /\
  gt_wrappers t = map (fun si => (wrapper_name (snd si), fst si)) (gt_counter t) /\
  NoDup (gt_seqs t) /\ NoDup (gt_choices t).
Definition extends (t t' : gtracker) : Prop :=
  (exists w, gt_wrappers t' = gt_wrappers t ++ w) /\ incl (gt_seqs t) (gt_seqs t') /\ incl (gt_choices t) (gt_choices t').

Lemma extends_refl : forall t, extends t t.
Proof. intro t. split; [exists []; rewrite app_nil_r; reflexivity|split; apply incl_refl]. Qed.
Lemma extends_trans : forall a b c, extends a b -> extends b c -> extends a c.
Proof.
  intros a b c ((w & E) & S1 & C1) ((w' & E') & S2 & C2).
  split; [exists (w ++ w'); rewrite E', E, app_assoc; reflexivity|split; eapply incl_tran; eassumption].
Qed.
Lemma tracker_ok_new : tracker_ok gt_new.
Proof. split; [exists []; split; [constructor|reflexivity]|repeat split; constructor]. Qed.

Lemma arity_insert_in : forall n l, In n (arity_insert n l).
Proof.
  intros n l. unfold arity_insert. destruct (existsb (Nat.eqb n) l) eqn:E.
  - apply existsb_exists in E. destruct E as (m & I & E). apply Nat.eqb_eq in E. subst. exact I.
  - apply in_or_app. right. left. reflexivity.
Qed.
Lemma arity_insert_incl : forall n l, incl l (arity_insert n l).
Proof. intros n l x I. unfold arity_insert. destruct (existsb (Nat.eqb n) l); [exact I|apply in_or_app; left; exact I]. Qed.
Lemma arity_insert_only : forall n l x, In x (arity_insert n l) -> x = n \/ In x l.
Proof.
  intros n l x I. unfold arity_insert in I. destruct (existsb (Nat.eqb n) l); [right; exact I|].
  apply in_app_or in I. destruct I as [I|[->|[]]]; [right; exact I|left; reflexivity].
Qed.
Lemma arity_insert_nodup : forall n l, NoDup l -> NoDup (arity_insert n l).
Proof.
  intros n l D. unfold arity_insert. destruct (existsb (Nat.eqb n) l) eqn:E; [exact D|].
  apply NoDup_rev in D. rewrite <- (rev_involutive (l ++ [n])). apply NoDup_rev. rewrite rev_app_distr. cbn.
  constructor; [|exact D]. intro I. apply in_rev in I.
  assert (existsb (Nat.eqb n) l = true); [|congruence]. apply existsb_exists. exists n. split; [exact I|apply Nat.eqb_refl].
Qed.

Lemma record_seq_ok : forall n t, tracker_ok t -> tracker_ok (record_seq n t).
Proof. intros n t (A & B & C & D). split; [exact A|split; [exact B|split; [apply arity_insert_nodup, C|exact D]]]. Qed.
Lemma record_choice_ok : forall n t, tracker_ok t -> tracker_ok (record_choice n t).
Proof. intros n t (A & B & C & D). split; [exact A|split; [exact B|split; [exact C|apply arity_insert_nodup, D]]]. Qed.
Lemma record_seq_extends : forall n t, extends t (record_seq n t).
Proof. intros n t. split; [exists []; symmetry; apply app_nil_r|split; [apply arity_insert_incl|apply incl_refl]]. Qed.
Lemma record_choice_extends : forall n t, extends t (record_choice n t).
Proof. intros n t. split; [exists []; symmetry; apply app_nil_r|split; [apply incl_refl|apply arity_insert_incl]]. Qed.

Lemma lookup_combine : forall strings start s i,
  lookup s (combine strings (List.seq start (length strings))) = Some i -> In (s, i) (combine strings (List.seq start (length strings))) /\
  nth_error strings (i - start) = Some s /\ start <= i.
Proof.
  induction strings as [|x strings IH]; intros start s i H; [discriminate|]. cbn in H.
  destruct (teqb s x) as [->|N].
  - injection H as ->. split; [left; reflexivity|]. rewrite Nat.sub_diag. split; [reflexivity|lia].
  - destruct (IH _ _ _ H) as (I & E & L). split; [right; exact I|].
    split; [|lia]. replace (i - start) with (S (i - S start)) by lia. exact E.
Qed.
Lemma combine_keys : forall {A : Type} (l : list A) start, map fst (combine l (List.seq start (length l))) = l.
Proof. induction l as [|x l IH]; intro start; cbn; [reflexivity|rewrite IH; reflexivity]. Qed.
Lemma combine_values : forall {A : Type} (l : list A) start, map snd (combine l (List.seq start (length l))) = List.seq start (length l).
Proof. induction l as [|x l IH]; intro start; cbn; [reflexivity|rewrite IH; reflexivity]. Qed.
Lemma combine_snoc : forall {A : Type} (l : list A) x start,
  combine (l ++ [x]) (List.seq start (length (l ++ [x]))) = combine l (List.seq start (length l)) ++ [(x, start + length l)].
Proof.
  induction l as [|y l IH]; intros x start; cbn; [rewrite Nat.add_0_r; reflexivity|].
  rewrite IH. rewrite Nat.add_succ_r. reflexivity.
Qed.

(** Inserting a string: what is returned names a constant with that content. *)
Lemma insert_string_spec : forall s t p t', tracker_ok t -> insert_string_wrapper s t = (p, t') ->
  tracker_ok t' /\ extends t t' /\ exists i, p = [wrapper_mod; wrapper_name i] /\ In (s, i) (gt_counter t').
Proof.
  intros s t p t' ((strings & D & C) & W & S & Ch) H. unfold insert_string_wrapper in H.
  destruct (lookup s (gt_counter t)) as [i|] eqn:L.
  - injection H as <- <-. split; [split; [exists strings; split; assumption|repeat split; assumption]|].
    split; [apply extends_refl|]. exists i. split; [reflexivity|apply lookup_in, L].
  - injection H as <- <-. cbn.
    assert (N : ~ In s strings). { apply lookup_none in L. rewrite C, combine_keys in L. exact L. }
    assert (Len : length (gt_counter t) = length strings).
    { rewrite C, combine_length, seq_length. lia. }
    split; [|split].
    + split; [exists (strings ++ [s])|].
      * split.
        -- apply (NoDup_Add (a := s) (l := strings)); [|split; assumption].
           rewrite <- (app_nil_r strings) at 1. apply Add_app.
        -- cbn. rewrite combine_snoc, <- C, Len. reflexivity.
      * cbn. split; [rewrite W, map_app; reflexivity|split; assumption].
    + split; [cbn; eexists; reflexivity|split; apply incl_refl].
    + exists (length (gt_counter t)). split; [reflexivity|]. apply in_or_app. right. left. reflexivity.
Qed.

(** A history of requests to a tracker: the strings with the paths given for them, and the tracker after. *)
Inductive request := Ask_string (s : text) | Use_seq (n : nat) | Use_choice (n : nat).
Fixpoint serve (l : list request) (t : gtracker) : list (text * list text) * gtracker :=
  match l with
  | [] => ([], t)
  | Ask_string s :: r =>
      let (p, t) := insert_string_wrapper s t in let (answers, t) := serve r t in ((s, p) :: answers, t)
  | Use_seq n :: r => serve r (record_seq n t)
  | Use_choice n :: r => serve r (record_choice n t)
  end.

Lemma in_counter_wrapper : forall t s i, tracker_ok t -> In (s, i) (gt_counter t) -> In (wrapper_name i, s) (gt_wrappers t).
Proof. intros t s i (_ & W & _) I. rewrite W. apply (in_map (fun si => (wrapper_name (snd si), fst si))) in I. exact I. Qed.
Lemma extends_wrapper : forall t t' w s, extends t t' -> In (w, s) (gt_wrappers t) -> In (w, s) (gt_wrappers t').
Proof. intros t t' w s ((x & E) & _) I. rewrite E. apply in_or_app. left. exact I. Qed.
Lemma wrappers_nodup : forall t, tracker_ok t -> NoDup (map fst (gt_wrappers t)) /\ NoDup (map snd (gt_wrappers t)).
Proof.
  intros t ((strings & D & C) & W & _). rewrite W, C, !map_map. cbn [fst snd]. split.
  - rewrite <- (map_map snd wrapper_name), combine_values.
    apply FinFun.Injective_map_NoDup; [exact wrapper_name_inj|apply seq_NoDup].
  - rewrite combine_keys. exact D.
Qed.
Lemma nodup_snd : forall {A B : Type} (l : list (A * B)) k k' v,
  NoDup (map snd l) -> In (k, v) l -> In (k', v) l -> k = k'.
Proof.
  induction l as [|(k0, v0) l IH]; intros k k' v D I I'; [destruct I|]. inversion_clear D as [|? ? N D'].
  destruct I as [E|I], I' as [E'|I']; try (injection E as -> ->).
  - injection E' as E'. congruence.
  - exfalso. apply N. apply (in_map snd) in I'. exact I'.
  - injection E' as -> ->. exfalso. apply N. apply (in_map snd) in I. exact I.
  - eapply IH; eassumption.
Qed.
Lemma nodup_fst : forall {A B : Type} (l : list (A * B)) k v v',
  NoDup (map fst l) -> In (k, v) l -> In (k, v') l -> v = v'.
Proof.
  induction l as [|(k0, v0) l IH]; intros k v v' D I I'; [destruct I|]. inversion_clear D as [|? ? N D'].
  destruct I as [E|I], I' as [E'|I']; try (injection E as -> ->).
  - injection E' as E'. congruence.
  - exfalso. apply N. apply (in_map fst) in I'. exact I'.
  - injection E' as -> ->. exfalso. apply N. apply (in_map fst) in I. exact I.
  - eapply IH; eassumption.
Qed.

Lemma serve_spec : forall l t answers t', tracker_ok t -> serve l t = (answers, t') ->
  tracker_ok t' /\ extends t t' /\
  (forall s p, In (s, p) answers -> exists w, p = [wrapper_mod; w] /\ In (w, s) (gt_wrappers t')) /\
  (forall n, In (Use_seq n) l -> In n (gt_seqs t')) /\ (forall n, In (Use_choice n) l -> In n (gt_choices t')) /\
  (forall n, In n (gt_seqs t') -> In (Use_seq n) l \/ In n (gt_seqs t)) /\
  (forall n, In n (gt_choices t') -> In (Use_choice n) l \/ In n (gt_choices t)).
Proof.
  induction l as [|[s|n|n] l IH]; intros t answers t' O H; cbn [serve] in H.
  - injection H as <- <-. split; [exact O|]. split; [apply extends_refl|]. repeat split; try (intros; contradiction); intros; right; assumption.
  - destruct (insert_string_wrapper s t) as (p, t1) eqn:E1. destruct (serve l t1) as (a, t2) eqn:E2. injection H as <- <-.
    assert (S1 : gt_seqs t1 = gt_seqs t /\ gt_choices t1 = gt_choices t).
    { unfold insert_string_wrapper in E1. destruct (lookup s (gt_counter t)); injection E1 as _ <-; split; reflexivity. }
    destruct (insert_string_spec _ _ _ _ O E1) as (O1 & X1 & i & -> & I).
    destruct (IH _ _ _ O1 E2) as (O2 & X2 & A & B & C & D & F). destruct S1 as (S1 & S2).
    split; [exact O2|]. split; [eapply extends_trans; eassumption|]. split; [|repeat split].
    + intros s' p' [E|I']; [|apply A, I']. injection E as <- <-. exists (wrapper_name i). split; [reflexivity|].
      eapply extends_wrapper; [exact X2|]. apply in_counter_wrapper; assumption.
    + intros n [E|I']; [discriminate|apply B, I'].
    + intros n [E|I']; [discriminate|apply C, I'].
    + intros n I'. destruct (D n I') as [J|J]; [left; right; exact J|right; rewrite <- S1; exact J].
    + intros n I'. destruct (F n I') as [J|J]; [left; right; exact J|right; rewrite <- S2; exact J].
  - destruct (IH _ _ _ (record_seq_ok n t O) H) as (O2 & X2 & A & B & C & D & F).
    split; [exact O2|]. split; [eapply extends_trans; [apply record_seq_extends|exact X2]|]. split; [exact A|]. repeat split.
    + intros m [E|I']; [|apply B, I']. injection E as ->. apply X2. apply arity_insert_in.
    + intros m [E|I']; [discriminate|apply C, I'].
    + intros m I'. destruct (D m I') as [J|J]; [left; right; exact J|].
      apply arity_insert_only in J. destruct J as [->|J]; [left; left; reflexivity|right; exact J].
    + intros m I'. destruct (F m I') as [J|J]; [left; right; exact J|right; exact J].
  - destruct (IH _ _ _ (record_choice_ok n t O) H) as (O2 & X2 & A & B & C & D & F).
    split; [exact O2|]. split; [eapply extends_trans; [apply record_choice_extends|exact X2]|]. split; [exact A|]. repeat split.
    + intros m [E|I']; [discriminate|apply B, I'].
    + intros m [E|I']; [|apply C, I']. injection E as ->. apply X2. apply arity_insert_in.
    + intros m I'. destruct (D m I') as [J|J]; [left; right; exact J|right; exact J].
    + intros m I'. destruct (F m I') as [J|J]; [left; right; exact J|].
      apply arity_insert_only in J. destruct J as [->|J]; [left; left; reflexivity|right; exact J].
Qed.

(** The three modules of the tracker, after items with other names. *)
Definition apart (top : list (text * ritem)) : Prop :=
  forall k, In k [wrapper_mod; lit "unicode"; generics_mod] -> ~ In k (map fst top).

Lemma entry_wrapper_mod : forall top t, apart top ->
  entry wrapper_mod (top ++ collect_tracker t) = Some (R_mod (map (fun ws => (fst ws, R_string (snd ws))) (gt_wrappers t)) []).
Proof. intros top t A. rewrite entry_app_r by (apply A; left; reflexivity). reflexivity. Qed.
Lemma entry_unicode_mod : forall top t, apart top ->
  entry (lit "unicode") (top ++ collect_tracker t) = Some (R_use [pest_crate; lit "typed"; lit "unicode"]).
Proof. intros top t A. rewrite entry_app_r by (apply A; right; left; reflexivity). reflexivity. Qed.
Definition generics_items (t : gtracker) : list (text * ritem) :=
  map (fun n => (n, R_use (template_path n))) template_names ++
  fill (lit "Sequence") (lit "sequence") R_seq (gt_seqs t) ++ fill (lit "Choice") (lit "choice") R_choice (gt_choices t).
Lemma entry_generics_mod : forall top t, apart top ->
  entry generics_mod (top ++ collect_tracker t) = Some (R_mod (generics_items t) []).
Proof. intros top t A. rewrite entry_app_r by (apply A; right; right; left; reflexivity). reflexivity. Qed.

Lemma entry_wrapper : forall t w s, tracker_ok t -> In (w, s) (gt_wrappers t) ->
  entry w (map (fun ws => (fst ws, R_string (snd ws))) (gt_wrappers t)) = Some (R_string s).
Proof.
  intros t w s O I. rewrite (entry_map R_string). rewrite (entry_unique _ w s); [reflexivity| |exact I].
  apply (wrappers_nodup t O).
Qed.

Lemma fill_keys : forall prefix module define l, map fst (fill prefix module define l) = map (fun n => prefix ++ decimal n) l.
Proof. intros. unfold fill. rewrite map_map. reflexivity. Qed.
Lemma fill_unique : forall prefix module define l n, NoDup l -> In n l ->
  entry (prefix ++ decimal n) (fill prefix module define l) =
  Some (if 16 <? n then define n else R_use [pest_crate; module; prefix ++ decimal n]).
Proof.
  intros prefix module define l n D I. apply entry_unique.
  - rewrite fill_keys. apply FinFun.Injective_map_NoDup; [|exact D].
    intros a b E. apply app_inv_head in E. apply decimal_inj, E.
  - unfold fill. apply (in_map (fun n => (prefix ++ decimal n, if 16 <? n then define n else R_use [pest_crate; module; prefix ++ decimal n]))) in I.
    exact I.
Qed.
(** The prefixes tell sequences, choices and the other names apart. *)
Lemma template_keys : map fst (map (fun n => (n, R_use (template_path n))) template_names) = template_names.
Proof. rewrite map_map. cbn [fst]. apply map_id. Qed.
Lemma sequence_not_template : forall n, ~ In (lit "Sequence" ++ decimal n) (map fst (map (fun n => (n, R_use (template_path n))) template_names)).
Proof.
  intro n. rewrite template_keys. intro I.
  assert (H : forallb (fun n => negb (text_eqb (firstn 8 n) (lit "Sequence"))) template_names = true) by (vm_compute; reflexivity).
  rewrite forallb_forall in H. specialize (H _ I). discriminate H.
Qed.
Lemma choice_not_template : forall n, ~ In (lit "Choice" ++ decimal n) (map fst (map (fun n => (n, R_use (template_path n))) template_names)).
Proof.
  intro n. rewrite template_keys. intro I.
  assert (H : forallb (fun n => negb (text_eqb (firstn 6 n) (lit "Choice"))) template_names = true) by (vm_compute; reflexivity).
  rewrite forallb_forall in H. specialize (H _ I). discriminate H.
Qed.
(** A check that all texts of a list differ. *)
Fixpoint distinct (l : list text) : bool := match l with [] => true | x :: r => negb (text_in x r) && distinct r end.
Lemma distinct_spec : forall l, distinct l = true -> NoDup l.
Proof.
  induction l as [|x l IH]; intro H; [constructor|]. cbn [distinct] in H. apply andb_prop in H. destruct H as (H & H').
  constructor; [|apply IH, H']. destruct (text_in_spec x l); [discriminate|assumption].
Qed.
Lemma entry_sequence : forall t n, tracker_ok t -> In n (gt_seqs t) ->
  entry (lit "Sequence" ++ decimal n) (generics_items t) =
  Some (if 16 <? n then R_seq n else R_use [pest_crate; lit "sequence"; lit "Sequence" ++ decimal n]).
Proof.
  intros t n (_ & _ & D & _) I. unfold generics_items. rewrite entry_app_r by apply sequence_not_template.
  rewrite entry_app_l; [apply fill_unique; assumption|].
  rewrite fill_keys. intro J. apply in_map_iff in J. destruct J as (m & E & _). discriminate E.
Qed.
Lemma entry_choice : forall t n, tracker_ok t -> In n (gt_choices t) ->
  entry (lit "Choice" ++ decimal n) (generics_items t) =
  Some (if 16 <? n then R_choice n else R_use [pest_crate; lit "choice"; lit "Choice" ++ decimal n]).
Proof.
  intros t n (_ & _ & _ & D) I. unfold generics_items. rewrite entry_app_r by apply choice_not_template.
  rewrite entry_app_r; [apply fill_unique; assumption|].
  rewrite fill_keys. intro J. apply in_map_iff in J. destruct J as (m & E & _). discriminate E.
Qed.
Lemma entry_template : forall t k, In k template_names -> entry k (generics_items t) = Some (R_use (template_path k)).
Proof.
  intros t k I. unfold generics_items. rewrite entry_app_l.
  - apply entry_unique; [|apply (in_map (fun n => (n, R_use (template_path n)))) in I; exact I].
    rewrite template_keys. apply distinct_spec. vm_compute. reflexivity.
  - rewrite map_app, !fill_keys. intro J. apply in_app_or in J.
    destruct J as [J|J]; apply in_map_iff in J; destruct J as (m & E & _).
    + apply (sequence_not_template m). rewrite template_keys, E. exact I.
    + apply (choice_not_template m). rewrite template_keys, E. exact I.
Qed.

Lemma of_arity_self : forall prefix l n, In n l -> of_arity prefix (prefix ++ decimal n) l = Some n.
Proof.
  intros prefix l n I. unfold of_arity. induction l as [|m l IH]; [destruct I|]. cbn [find].
  destruct (teqb (prefix ++ decimal n) (prefix ++ decimal m)) as [E|N].
  - apply app_inv_head in E. apply decimal_inj in E. subst m. reflexivity.
  - destruct I as [->|I]; [congruence|]. apply IH, I.
Qed.
