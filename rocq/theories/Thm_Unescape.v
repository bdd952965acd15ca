(** Theorems about the contents of string literals in grammar files (meta/src/parser.rs). *)
From Coq Require Import String List NArith Arith Bool.
From Verif Require Import Model_Text Model_Unescape Spec_Unescape Proof_Unescape.
Import ListNotations.
Open Scope list_scope.

(** C45: every text can be written as the contents of a string literal, and unescaping that gives
    back the text. *)
Theorem C45_escaped_form : forall r, exists s, inner_str s /\ documented s r /\ unescape s = Ret (Some r).
Proof.
  intro r. destruct (escaped_form_exists r) as (s & I & D). exists s. split; [exact I|]. split; [exact D|].
  apply unescape_iff, documented_tolerated, D.
Qed.
Print Assumptions C45_escaped_form.
Example C45_escaped_form_ex :
  documented (lit "a" ++ [92; 34; 92; 92]%N) (lit "a" ++ [34; 92]%N) /\
  unescape (lit "a" ++ [92; 34; 92; 92]%N) = Ret (Some (lit "a" ++ [34; 92]%N)).
Proof.
  split; [|vm_compute; reflexivity].
  apply (D_plain 97%N); [discriminate|discriminate|].
  apply (D_escape [92; 34]%N); [apply E_letter; constructor|].
  apply (D_escape [92; 92]%N); [apply E_letter; constructor|constructor].
Qed.

(** C45: whichever way a text is written with the documented escapes, unescaping gives it back. *)
Theorem C45_every_form : forall s r, documented s r -> unescape s = Ret (Some r).
Proof. intros s r D. apply unescape_iff, documented_tolerated, D. Qed.
Print Assumptions C45_every_form.
Example C45_every_form_ex :
  documented ([92; 120; 54; 49]%N ++ []) [97%N] /\ documented ([92; 117; 123; 54; 49; 125]%N ++ []) [97%N].
Proof.
  assert (H : hex [54; 49]%N 97%N) by
    (apply (Hex_more [54%N] 6%N 49%N 1%N); [apply Hex_one|]; unfold hex_digit; left; repeat split; discriminate).
  split.
  - apply D_escape; [|constructor]. apply E_byte; [exact H|discriminate].
  - apply D_escape; [|constructor]. apply (E_unicode hex [54; 49]%N); [exact H|cbn; repeat constructor|reflexivity].
Qed.

(** C45: every Unicode scalar value has an escape. *)
Theorem C45_every_scalar : forall c, is_scalar c = true ->
  exists e, escape hex e c /\ inner_str e /\ unescape e = Ret (Some [c]).
Proof.
  intros c H. destruct (unicode_escape_exists c H) as (e & E & S & _). exists e. split; [exact E|]. split.
  - rewrite <- (app_nil_r e). apply IS_escape; [exact S|constructor].
  - apply C45_every_form. rewrite <- (app_nil_r e). apply D_escape; [exact E|constructor].
Qed.
Print Assumptions C45_every_scalar.
Example C45_every_scalar_ex : is_scalar 0x10FFFF%N = true /\
  unescape (92%N :: lit "u{10FFFF}") = Ret (Some [0x10FFFF%N]).
Proof. split; vm_compute; reflexivity. Qed.

(** C46, exactly what is accepted and what it means, for every text: the documented escapes, with a
    plus sign tolerated in front of digits, and quotes dropped. *)
Theorem C46_exact : forall s r, unescape s = Ret (Some r) <-> tolerated s r.
Proof. exact unescape_iff. Qed.
Print Assumptions C46_exact.
Example C46_exact_ex :
  tolerated [34; 97; 34]%N [97%N] /\ unescape (92%N :: lit "q") = Ret None /\
  unescape (92%N :: lit "x80") = Ret None /\ unescape (92%N :: lit "u{D800}") = Ret None /\
  unescape (92%N :: lit "u{}") = Ret None /\ unescape [92%N] = Ret None.
Proof.
  split; [|repeat split; vm_compute; reflexivity].
  apply T_quote, T_plain; [discriminate|discriminate|]. apply T_quote. constructor.
Qed.

(** C46: everything else is rejected; nothing panics or runs on. *)
Theorem C46_rejects : forall s, (forall r, ~ tolerated s r) <-> unescape s = Ret None.
Proof.
  intro s. split.
  - intro H. destruct (unescape_ret s) as ([r|] & E); [|exact E]. exfalso. apply (H r), unescape_iff, E.
  - intros E r T. apply unescape_iff in T. congruence.
Qed.
Print Assumptions C46_rejects.
Example C46_rejects_ex : forall r, ~ tolerated [92%N; 113%N] r.
Proof. apply C46_rejects. vm_compute. reflexivity. Qed.

(** C46, for the texts the grammar of grammar files admits in a string literal: the documented
    meaning, exactly. *)
Theorem C46_literal : forall s, inner_str s -> forall r, unescape s = Ret (Some r) <-> documented s r.
Proof.
  intros s I r. split; intro H.
  - apply literal_documented; [exact I|]. apply unescape_iff, H.
  - apply C45_every_form, H.
Qed.
Print Assumptions C46_literal.
Example C46_literal_ex : inner_str ([92; 110]%N ++ []) /\ unescape ([92; 110]%N ++ []) = Ret (Some [10%N]).
Proof. split; [|vm_compute; reflexivity]. apply IS_escape; [apply (ES_letter 110%N 10%N)|]; constructor. Qed.

(** C46, as documented, is false of texts outside that grammar: a plus sign passes for a digit. *)
Theorem C46_plus_refuted : exists s r, unescape s = Ret (Some r) /\ ~ documented s r.
Proof.
  exists (92%N :: lit "x+f"), [15%N]. split; [vm_compute; reflexivity|]. intro D.
  assert (P : forall t n, hex t n -> Forall (fun c => c <> 43%N) t).
  { induction 1 as [c d H|t n c d H IH K].
    - constructor; [apply is_hex_not_plus; exists d; exact H|constructor].
    - apply Forall_app. split; [exact IH|]. constructor; [apply is_hex_not_plus; exists d; exact K|constructor]. }
  assert (G : forall s r, documented s r -> s = (92%N :: lit "x+f") -> False).
  { intros s r [|c s' r' N1 N2 D'|e c s' r' E D'] Q; [discriminate|congruence|].
    destruct E as [x y L|h1 h2 n H _|t n H _ _]; cbn in Q; inversion Q; subst.
    - inversion L.
    - apply P in H. inversion H; congruence. }
  exact (G _ _ D eq_refl).
Qed.
Print Assumptions C46_plus_refuted.
