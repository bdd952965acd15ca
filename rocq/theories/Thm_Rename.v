(** C83: the names of the rules of the grammar of grammars in error messages (meta/src/error.rs). *)
From Coq Require Import String List NArith Arith Bool Lia.
From Verif Require Import Model_Text Model_Message Model_Meta Model_Grammar Model_Pest2 Model_Rename Spec_Unescape Spec_Message Spec_Grammar Spec_Import Spec_Pest2
  Thm_Pest2.
Import ListNotations.
Open Scope list_scope.

Lemma everywhere_mono : forall (P Q : ppair -> Prop), (forall p, P p -> Q p) -> forall p, everywhere P p -> everywhere Q p.
Proof.
  intros P Q H. fix IH 2. intros p E. destruct E as [p Pp F]. constructor; [apply H, Pp|]. induction F as [|q l E F IHF]; constructor; [apply IH, E|exact IHF].
Qed.

(** What is named in backquotes is what is written there, but for three rules. *)
Definition quoted (x : text) : text := 96%N :: x ++ [96%N].
Theorem C83_tokens : forall report input ps, parse_text report input = inl ps ->
  Forall (everywhere (fun p => forall x, rename_meta_rule (pp_rule p) = quoted x ->
    pp_rule p <> R_sequence_operator -> pp_rule p <> R_choice_operator -> pp_rule p <> R_insensitive_string -> pp_str p = x)) ps.
Proof.
  intros report input ps H. eapply Forall_impl; [|exact (C67_tokens report input ps H)]. intros p E.
  eapply everywhere_mono; [|exact E]. clear. intros [r u a b l] (L & _) x N A B C. cbn [pp_rule pp_str] in *.
  assert (Q : forall t, lit t = quoted x -> x = removelast (tl (lit t))).
  { intros t ->. unfold quoted. cbn [tl]. rewrite removelast_last. reflexivity. }
  destruct r; cbn [rename_meta_rule debug_rule] in N; try (vm_compute in N; discriminate N); try congruence; apply Q in N; cbn [lexical] in L; subst; reflexivity.
Qed.
Print Assumptions C83_tokens.
(** Different rules have different names, but for two. *)
Theorem C83_names : forall r r', rename_meta_rule r = rename_meta_rule r' -> r <> r' ->
  (r = R_positive_predicate_operator /\ r' = R_sequence_operator) \/ (r = R_sequence_operator /\ r' = R_positive_predicate_operator).
Proof.
  intros r r' E N.   destruct r, r'; try (vm_compute in E; discriminate E); try congruence; auto.
Qed.
Print Assumptions C83_names.
(** The two rules that share a name are different rules; those of the other predicate and of the other sequences have names of their own. *)
Example C83_names_ex : rename_meta_rule R_positive_predicate_operator = rename_meta_rule R_sequence_operator /\
  R_positive_predicate_operator <> R_sequence_operator /\ rename_meta_rule R_tilde_operator = lit "tilde_operator" /\ rename_meta_rule R_negative_predicate_operator = lit "`!`".
Proof. repeat split. discriminate. Qed.
Definition operators_of (ps : list ppair) : list (text * text) :=
  (fix all (fuel : nat) (ps : list ppair) : list (text * text) :=
    match fuel with
    | 0 => []
    | S k => flat_map (fun p => (if (hd 0%N (rename_meta_rule (pp_rule p)) =? 96)%N then [(rename_meta_rule (pp_rule p), pp_str p)] else []) ++ all k (pp_inner p)) ps
    end) 20 ps.
Example C83_ex : exists ps, parse_text (fun _ => 0%N) (lit "a=_{!b*|c[..]}") = inl ps /\
  operators_of ps = [(lit "`=`", lit "="); (lit "`_`", lit "_"); (lit "`{`", lit "{"); (lit "`!`", lit "!"); (lit "`*`", lit "*"); (lit "`|`", lit "|");
                     (lit "`[`", lit "["); (lit "`..`", lit ".."); (lit "`]`", lit "]"); (lit "`}`", lit "}")].
Proof. eexists. split; vm_compute; reflexivity. Qed.

(** The operator [-] of sequences is called [`&`], [~|] is called [`|`], and a string that ignores the case is called [`i`]. *)
Lemma found : forall (P : ppair -> Prop) n ps p, (fix at_path (n : list nat) (ps : list ppair) : option ppair :=
    match n with [] => None | [i] => nth_error ps i | i :: n' => match nth_error ps i with Some q => at_path n' (pp_inner q) | None => None end end) n ps = Some p ->
  Forall (everywhere P) ps -> P p.
Proof.
  intros P n. induction n as [|i n IH]; intros ps p H F; [discriminate H|].
  assert (Q : forall q, nth_error ps i = Some q -> everywhere P q).
  { intros q E. rewrite Forall_forall in F. apply F. eapply nth_error_In, E. }
  destruct n as [|j n].
  - specialize (Q p H). inversion Q. assumption.
  - destruct (nth_error ps i) as [q|]; [|discriminate H]. specialize (Q q eq_refl). inversion Q; subst. eapply IH; eassumption.
Qed.
Theorem C83_operators_refuted : forall r, In r [R_sequence_operator; R_choice_operator; R_insensitive_string] ->
  exists input ps, parse_text (fun _ => 0%N) input = inl ps /\
    ~ Forall (everywhere (fun p => pp_rule p = r -> forall x, rename_meta_rule r = quoted x -> pp_str p = x)) ps.
Proof.
  intros r [<-|[<-|[<-|[]]]].
  - exists (lit "a=b-c"). eexists. split; [vm_compute; reflexivity|]. intro F. eapply (found _ [0; 2; 1]) in F; [|vm_compute; reflexivity].
    specialize (F eq_refl (lit "&") eq_refl). discriminate F.
  - exists (lit "a=b~|c"). eexists. split; [vm_compute; reflexivity|]. intro F. eapply (found _ [0; 2; 1]) in F; [|vm_compute; reflexivity].
    specialize (F eq_refl (lit "|") eq_refl). discriminate F.
  - exists (lit "a=i""b"""). eexists. split; [vm_compute; reflexivity|]. intro F. eapply (found _ [0; 2; 0; 0]) in F; [|vm_compute; reflexivity].
    specialize (F eq_refl (lit "i") eq_refl). discriminate F.
Qed.
Print Assumptions C83_operators_refuted.
