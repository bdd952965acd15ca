(** The nodes of the built-in rules, and of texts and ranges, mean what the grammar says. *)
From Coq Require Import String List NArith ZArith Arith Bool Lia.
From Verif Require Import Model_Text Model_Message Model_Meta Model_Import Model_Tracker Model_Node Model_Generator Model_Output
  Spec_Text Spec_Peg Spec_Grammar_Peg Spec_Grammar_Trace Spec_Occur Spec_Generator Spec_Rust Proof_Text Proof_Emit Proof_Names Proof_Compile.
Import ListNotations.
Open Scope list_scope.

(** Nodes without parts, and choices between them. *)
Definition flat_node (n : node) : bool :=
  match n with
  | Str _ | Insens _ | SkipChar _ | CharRange _ _ | Char _ | Any | Property _ | NONE | Empty | Soi | Eoi | Newline | Peek | Pop | Drop
  | PeekAll | PopAll | PeekSlice2 _ _ | PeekSlice1 _ => true
  | _ => false
  end.
Inductive leaf : node -> Prop :=
| Leaf_flat n : flat_node n = true -> leaf n
| Leaf_choice l : Forall leaf l -> leaf (Choice l).

(** No slice of the stack is matched. *)
Fixpoint unsliced (n : node) : bool :=
  match n with
  | PeekSlice2 _ _ | PeekSlice1 _ => false
  | Choice l => forallb unsliced l
  | _ => true
  end.

(** Nothing asks whether the input starts here. *)
Fixpoint unplaced (n : node) : bool :=
  match n with
  | Soi => false
  | Choice l => forallb unplaced l
  | _ => true
  end.

(** Nothing looks at the top of the stack or at a slice of it. *)
Fixpoint harmless (n : node) : bool :=
  match n with
  | Peek | Pop | Drop | PeekSlice2 _ _ | PeekSlice1 _ => false
  | Choice l => forallb harmless l
  | _ => true
  end.
(** How the expression and its node misuse the stack. *)
Inductive misused (unicode : list text) (g : gmodule) : parse_expr -> node -> Prop :=
| Mis_text e n : (forall p args, e <> PPath p args) -> harmless n = true -> misused unicode g e n
| Mis_builtin p args q n : names unicode g p (E_builtin q) -> (forall range, args <> Some (PSlice range)) -> ~ takes_top q -> q <> [lit "stack"; lit "push"] -> harmless n = true ->
    misused unicode g (PPath p args) n
| Mis_top p args q n : names unicode g p (E_builtin q) -> (forall range, args <> Some (PSlice range)) -> takes_top q -> n = Peek \/ n = Pop \/ n = Drop ->
    misused unicode g (PPath p args) n
| Mis_slice p range n : names unicode g p (E_builtin [lit "stack"; lit "peek"]) ->
    n = match r_end range with Some b => PeekSlice2 (slice_from range) b | None => PeekSlice1 (slice_from range) end ->
    misused unicode g (PPath p (Some (PSlice range))) n.

Lemma one_char_ext : forall P Q pre post K r, (forall c, P c <-> Q c) -> one_char P pre post K r <-> one_char Q pre post K r.
Proof.
  intros P Q pre post K r H. split; intros [c r0 E X|X].
  - apply OC_ok; [exact E|apply H, X].
  - apply OC_fail. intros c r0 E Y. apply (X c r0 E), H, Y.
  - apply OC_ok; [exact E|apply H, X].
  - apply OC_fail. intros c r0 E Y. apply (X c r0 E), H, Y.
Qed.

Section Leaf.
Variable property : N -> char -> bool.
Variable env : rule -> rule_def.
Notation peg := (peg env property).
Notation peg_choice := (peg_choice env property).

Lemma peg_flat : forall n pre post K r, flat_node n = true -> (peg n pre post K r <-> terminal property pre post K n r).
Proof.
  intros n pre post K r F. split; [|apply P_terminal]. intro H. inversion H; subst; try discriminate F. assumption.
Qed.

(** One character. *)
Definition chars (n : node) (p : char -> bool) : Prop := forall pre post K r, peg n pre post K r <-> one_char (fun c => p c = true) pre post K r.
Lemma chars_range : forall a b, chars (CharRange a b) (fun c => (a <=? c) && (c <=? b))%N.
Proof.
  intros a b pre post K r. rewrite peg_flat by reflexivity.
  rewrite (one_char_ext _ (fun c => (a <= c <= b)%N)) by (intro c; rewrite andb_true_iff, !N.leb_le; reflexivity).
  split; [intro H; inversion H; assumption|apply T_range].
Qed.
Lemma chars_any : chars Any (fun _ => true).
Proof.
  intros pre post K r. rewrite peg_flat by reflexivity.
  rewrite (one_char_ext _ (fun c => True)) by (intro c; split; auto). split; [intro H; inversion H; assumption|apply T_any].
Qed.
Lemma chars_property : forall i, chars (Property i) (property i).
Proof. intros i pre post K r. rewrite peg_flat by reflexivity. split; [intro H; inversion H; assumption|apply T_property]. Qed.
Lemma chars_choices : forall l, Forall (fun np => chars (fst np) (snd np)) l ->
  forall pre post K r, peg_choice (map fst l) pre post K r <-> one_char (fun c => existsb (fun np => snd np c) l = true) pre post K r.
Proof.
  intros l F. induction F as [|(n, p) l H F IH]; intros pre post K r; cbn [map fst existsb snd].
  - split; intro H; [inversion H; subst; apply OC_fail; discriminate|]. destruct H; [discriminate|]. constructor.
  - cbn [fst snd] in H. split; intro D.
    + inversion D as [|n0 ns p0 q0 K0 p1 q1 K1 D1|n0 ns p0 q0 K0 r0 D1 D2]; subst.
      * apply H in D1. inversion D1 as [c r0 E X|]; subst. eapply OC_ok; [reflexivity|]. rewrite X. reflexivity.
      * apply H in D1. inversion D1 as [|X]; subst. apply IH in D2. destruct D2 as [c r0 E Y|Y].
        -- eapply OC_ok; [exact E|]. rewrite Y. apply orb_true_r.
        -- apply OC_fail. intros c r0 E Z. apply orb_prop in Z. destruct Z as [Z|Z]; [exact (X _ _ E Z)|exact (Y _ _ E Z)].
    + destruct D as [c r0 E X|X].
      * destruct (p c) eqn:Q.
        -- apply C_ok, H. eapply OC_ok; [exact E|exact Q].
        -- apply C_next; [apply H, OC_fail; intros c' r' E' Z; rewrite E in E'; injection E' as <- <-; congruence|].
           apply IH. eapply OC_ok; [exact E|exact X].
      * apply C_next; [apply H, OC_fail; intros c' r' E' Z; apply (X _ _ E'); rewrite Z; reflexivity|].
        apply IH, OC_fail. intros c' r' E' Z. apply (X _ _ E'). rewrite Z. apply orb_true_r.
Qed.
Lemma chars_choice : forall l, Forall (fun np => chars (fst np) (snd np)) l -> chars (Choice (map fst l)) (fun c => existsb (fun np => snd np c) l).
Proof.
  intros l F pre post K r. rewrite <- (chars_choices l F). split; [|apply P_choice]. intro H. inversion H; subst; [|assumption].
  match goal with X : terminal _ _ _ _ _ _ |- _ => inversion X end.
Qed.
Definition within (a b : N) (c : char) : bool := ((a <=? c) && (c <=? b))%N.
Lemma within_spec : forall a b c, within a b c = true <-> between a b c.
Proof. intros. unfold within, between. rewrite andb_true_iff, !N.leb_le. reflexivity. Qed.
Lemma chars_hex : chars ascii_hex_digit (fun c => existsb (fun np => snd np c)
  [(ascii_digit, within 48 57); (CharRange 97%N 102%N, within 97 102); (CharRange 65%N 70%N, within 65 70)]).
Proof. apply (chars_choice [(ascii_digit, within 48 57); (CharRange 97%N 102%N, within 97 102); (CharRange 65%N 70%N, within 65 70)]). repeat (apply Forall_cons; [apply chars_range|]); apply Forall_nil. Qed.
Lemma chars_alpha : chars ascii_alpha (fun c => existsb (fun np => snd np c) [(ascii_alpha_lower, within 97 122); (ascii_alpha_upper, within 65 90)]).
Proof. apply (chars_choice [(ascii_alpha_lower, within 97 122); (ascii_alpha_upper, within 65 90)]). repeat (apply Forall_cons; [apply chars_range|]); apply Forall_nil. Qed.
Lemma chars_alphanumeric : chars ascii_alphanumeric (fun c => existsb (fun np => snd np c)
  [(ascii_alpha, fun c => existsb (fun np => snd np c) [(ascii_alpha_lower, within 97 122); (ascii_alpha_upper, within 65 90)]); (ascii_digit, within 48 57)]).
Proof.
  apply (chars_choice [(ascii_alpha, fun c => existsb (fun np => snd np c) [(ascii_alpha_lower, within 97 122); (ascii_alpha_upper, within 65 90)]); (ascii_digit, within 48 57)]).
  constructor; [apply chars_alpha|]. constructor; [apply chars_range|constructor].
Qed.

(** The node of a built-in rule that is used alone. *)
Inductive alone_node (unicode : list text) : list text -> node -> Prop :=
| AN_class x n P p : char_class x P -> unsliced n = true /\ unplaced n = true /\ harmless n = true -> leaf n -> chars n p -> (forall c, p c = true <-> P c) -> alone_node unicode [x] n
| AN_soi : alone_node unicode [lit "soi"] Soi
| AN_eoi : alone_node unicode [lit "eoi"] Eoi
| AN_newline : alone_node unicode [lit "newline"] Newline
| AN_peek : alone_node unicode [lit "stack"; lit "peek"] Peek
| AN_peek_all : alone_node unicode [lit "stack"; lit "peek_all"] PeekAll
| AN_drop : alone_node unicode [lit "stack"; lit "drop"] Drop
| AN_pop : alone_node unicode [lit "stack"; lit "pop"] Pop
| AN_pop_all : alone_node unicode [lit "stack"; lit "pop_all"] PopAll
| AN_unicode u i : nth_error unicode i = Some u -> alone_node unicode [lit "unicode"; folded u] (Property (N.of_nat i)).

Lemma char_class_unique : forall x P Q, char_class x P -> char_class x Q -> P = Q.
Proof. intros x P Q H H'. destruct H; inversion H'; try reflexivity. Qed.

Lemma property_unique : forall unicode x i j, distinct_properties unicode -> property_number unicode x i -> property_number unicode x j -> i = j.
Proof.
  intros unicode x i j D (u & Ei & Fi) (v & Ej & Fj). unfold distinct_properties in D. rewrite NoDup_nth_error in D. apply D.
  - rewrite map_length. apply nth_error_Some. congruence.
  - rewrite !nth_error_map, Ei, Ej. cbn. congruence.
Qed.

Lemma alone_same : forall unicode q n, distinct_properties unicode -> alone_node unicode q n ->
  forall pre post K r, gpeg_builtin unicode property q pre post K r <-> peg n pre post K r.
Proof.
  intros unicode q n D A pre post K r.
  assert (NC : forall x P, char_class x P -> x = lit "soi" \/ x = lit "eoi" \/ x = lit "newline" -> False).
  { intros x P C [E|[E|E]]; destruct C; discriminate. }
  destruct A as [x n P p C _ _ H X| | | | | | | | |u i N].
  - rewrite (H pre post K r). rewrite (one_char_ext _ P) by exact X. split; intro G.
    + inversion G; subst; try (exfalso; eapply NC; [exact C|tauto]). match goal with Y : char_class x ?Q |- _ => rewrite (char_class_unique _ _ _ C Y) end. assumption.
    + eapply GB_class; eassumption.
  - rewrite peg_flat by reflexivity. split; intro G; [inversion G; subst; [exfalso; eapply NC; [eassumption|tauto]|assumption]|apply GB_soi, G].
  - rewrite peg_flat by reflexivity. split; intro G; [inversion G; subst; [exfalso; eapply NC; [eassumption|tauto]|assumption]|apply GB_eoi, G].
  - rewrite peg_flat by reflexivity. split; intro G; [inversion G; subst; [exfalso; eapply NC; [eassumption|tauto]|assumption]|apply GB_newline, G].
  - rewrite peg_flat by reflexivity. split; intro G; [inversion G; subst; assumption|apply GB_peek, G].
  - rewrite peg_flat by reflexivity. split; intro G; [inversion G; subst; assumption|apply GB_peek_all, G].
  - rewrite peg_flat by reflexivity. split; intro G; [inversion G; subst; assumption|apply GB_drop, G].
  - rewrite peg_flat by reflexivity. split; intro G; [inversion G; subst; assumption|apply GB_pop, G].
  - rewrite peg_flat by reflexivity. split; intro G; [inversion G; subst; assumption|apply GB_pop_all, G].
  - rewrite (chars_property _ pre post K r). split; intro G.
    + inversion G; subst. assert (i0 = i) as -> by (eapply property_unique; [exact D|eassumption|exists u; split; [exact N|reflexivity]]). assumption.
    + eapply GB_unicode; [exists u; split; [exact N|reflexivity]|exact G].
Qed.
Lemma alone_leaf : forall unicode q n, alone_node unicode q n -> leaf n.
Proof. intros unicode q n H. destruct H; [assumption|..]; apply Leaf_flat; reflexivity. Qed.
Lemma alone_unsliced : forall unicode q n, alone_node unicode q n -> unsliced n = true.
Proof. intros unicode q n H. destruct H; [tauto|reflexivity..]. Qed.
Lemma alone_unplaced : forall unicode q n, alone_node unicode q n -> unplaced n = true \/ q = [lit "soi"].
Proof. intros unicode q n H. destruct H; [tauto|right; reflexivity|left; reflexivity..]. Qed.
Lemma alone_misused : forall unicode g p args q n, names unicode g p (E_builtin q) -> (forall range, args <> Some (PSlice range)) -> alone_node unicode q n ->
  misused unicode g (PPath p args) n.
Proof.
  intros unicode g p args q n Nm Ns H. destruct H; try (eapply Mis_top; [exact Nm|exact Ns|unfold takes_top; tauto|tauto]);
    (eapply Mis_builtin; [exact Nm|exact Ns|intros [T|[T|T]]; discriminate T|discriminate|first [reflexivity|tauto]]).
Qed.
End Leaf.

(** References to built-in rules. *)
Section Reference.
Variable unicode : list text.
Variable property : N -> char -> bool.
Variable env : rule -> rule_def.
Notation gpeg := (gpeg unicode property).
Notation peg := (peg env property).
Hypothesis Props : distinct_properties unicode.

Lemma alone_reference : forall g rho path args q n, not_param rho path -> only_names unicode g path (E_builtin q) ->
  (args = None \/ args = Some (PCall []) /\ exists x, q = [lit "unicode"; x]) -> alone_node property env unicode q n ->
  forall pre post K r, gpeg g rho (PPath path args) pre post K r <-> peg n pre post K r.
Proof.
  intros g rho path args q n Np (Nm & U) Ar A pre post K r. rewrite <- (alone_same property env unicode q n Props A). split; intro H.
  - inversion H; subst.
    + exfalso. eapply Np; [reflexivity|eassumption].
    + exfalso. match goal with X : names _ _ _ (E_rule _ _) |- _ => apply U in X; discriminate end.
    + match goal with X : names _ _ _ (E_builtin ?q') |- _ => apply U in X; injection X as -> end. assumption.
    + destruct Ar as [Ar|(Ar & _)]; discriminate.
    + destruct Ar as [Ar|(Ar & _)]; discriminate.
    + destruct Ar as [Ar|(Ar & _)]; discriminate.
    + match goal with X : repetition _ _ _ _ |- _ => destruct X as [(X & _)|[(X & _)|(? & X & _)]]; discriminate X end.
  - eapply G_builtin; [exact Np|exact Nm|exact Ar|exact H].
Qed.
Lemma slice_reference : forall g rho path range a n, not_param rho path -> only_names unicode g path (E_builtin [lit "stack"; lit "peek"]) ->
  (r_start range = Some a \/ r_start range = None /\ a = 0%Z) ->
  (n = PeekSlice1 a /\ r_end range = None \/ exists b, n = PeekSlice2 a b /\ r_end range = Some b) ->
  forall pre post K r, gpeg g rho (PPath path (Some (PSlice range))) pre post K r <-> peg n pre post K r.
Proof.
  intros g rho path range a n Np (Nm & U) St En pre post K r.
  assert (F : flat_node n = true) by (destruct En as [(-> & _)|(b & -> & _)]; reflexivity).
  rewrite peg_flat by exact F. split; intro H.
  - inversion H; subst.
    + exfalso. eapply Np; [reflexivity|eassumption].
    + match goal with X : call_arguments _ _ |- _ => destruct X as [X|(X & _)]; discriminate end.
    + match goal with X : _ \/ _ /\ exists x, q = _ |- _ => destruct X as [X|(X & _)]; discriminate end.
    + match goal with X : r_start range = Some ?a' \/ r_start range = None /\ ?a' = 0%Z, Y : terminal _ _ _ _ ?n' r |- _ =>
        assert (a' = a) by (destruct X as [X|(X & ->)], St as [St|(St & ->)]; congruence); subst a' end.
      match goal with Y : terminal _ _ _ _ ?n' r |- _ => assert (n' = n) as <-; [|exact Y] end.
      match goal with X : _ /\ r_end range = None \/ _ |- _ => destruct X as [(-> & X)|(b' & -> & X)], En as [(-> & En)|(b & -> & En)]; congruence end.
    + match goal with X : repetition _ _ _ _ |- _ => destruct X as [(X & _)|[(X & _)|(? & X & _)]]; discriminate X end.
  - eapply G_slice; eassumption.
Qed.
Ltac no_rep := match goal with X : repetition _ _ _ _ |- _ => destruct X as [(X & _)|[(X & _)|(? & X & _)]]; discriminate X end.
Lemma str_same : forall g rho s pre post K r, gpeg g rho (PStr s) pre post K r <-> peg (Str s) pre post K r.
Proof.
  intros. rewrite peg_flat by reflexivity. split; intro H; [inversion H; subst; [apply T_str; assumption|no_rep]|]. apply G_str. inversion H. assumption.
Qed.
Lemma insens_same : forall g rho s pre post K r, gpeg g rho (PInsens s) pre post K r <-> peg (Insens s) pre post K r.
Proof. intros. rewrite peg_flat by reflexivity. split; intro H; [inversion H; subst; [assumption|no_rep]|]. apply G_insens, H. Qed.
Lemma range_same : forall g rho a b pre post K r, gpeg g rho (PRange a b) pre post K r <-> peg (CharRange a b) pre post K r.
Proof.
  intros. rewrite peg_flat by reflexivity. split; intro H; [inversion H; subst; [apply T_range; assumption|no_rep]|]. apply G_range. inversion H. assumption.
Qed.
End Reference.
