(** Proofs about the parser of grammar files: white space, comments and tokens are matched as written. *)
From Coq Require Import String List NArith ZArith Arith Bool Lia.
From Verif Require Import Model_Text Model_Message Model_Meta Model_Pest2 Spec_Unescape Spec_Message Spec_Grammar Spec_Import
  Spec_Pest2 Spec_Written Proof_Pest2 Proof_First.
Import ListNotations.
Open Scope list_scope.

(** * Classes of first characters. *)
Lemma class_cons : forall l c r, ((c <=? 1114111) && in_ranges c l = true)%N -> in_class l (c :: r).
Proof. intros l c r H d r' E. injection E as <- _. apply andb_prop in H as (A & B). apply N.leb_le in A. split; assumption. Qed.
Lemma class_nil : forall l, in_class l [].
Proof. intros l d r' E. discriminate. Qed.
Lemma class_sub : forall l l' r, subset l l' = true -> in_class l r -> in_class l' r.
Proof. intros l l' r S C c r' E. destruct (C c r' E) as (A & B). split; [exact A|]. eapply subset_in; eassumption. Qed.
Lemma class_app : forall l u r, u <> [] -> in_class l u -> in_class l (u ++ r).
Proof. intros l [|c u] r N C d r' E; [contradiction|]. injection E as <- <-. exact (C c u eq_refl). Qed.
Ltac by_class := apply class_cons; vm_compute; reflexivity.
Lemma fails_nil : forall a e, regular_part e = true -> fails a e [].
Proof.
  intros a e R. apply (fails_class [] a e []); [|apply class_nil]. rewrite R. apply negb_true_iff. unfold overlap. induction (first level e) as [|r l IH]; [reflexivity|exact IH].
Qed.
Definition head_out (c : char) (e : qexpr) : bool := regular_part e && negb (in_ranges c (first level e)) && (c <=? 1114111)%N.
Lemma fails_head : forall a e c r, head_out c e = true -> fails a e (c :: r).
Proof.
  intros a e c r H. unfold head_out in H. apply andb_prop in H as (H & B). apply andb_prop in H as (R & F). apply negb_true_iff in F.
  apply (fails_class [(c, c)] a e).
  - rewrite R. apply negb_true_iff. unfold overlap, in_ranges in *. induction (first level e) as [|x l IH]; [reflexivity|]. cbn [existsb fst snd] in *.
    apply orb_false_iff in F as (F & G). rewrite F, (IH G). reflexivity.
  - apply class_cons. rewrite B. unfold in_ranges. cbn [existsb fst snd]. rewrite !N.leb_refl. reflexivity.
Qed.
Ltac no_match :=
  first [apply fails_nil; vm_compute; reflexivity | apply fails_head; vm_compute; reflexivity
        | eapply fails_class; [|eassumption]; vm_compute; reflexivity].

Lemma passes_quiet : forall a v, skips a = false -> passes a v v.
Proof. intros a v N s E. exists s. split; [|exact E]. split; [reflexivity|]. rewrite N. reflexivity. Qed.
Lemma plain_yields : forall a e r v P, skips a = false -> exactly a e r v P -> yields a e r v P.
Proof. intros a e r v P N H. eapply exactly_yields; [exact H|]. apply passes_quiet, N. Qed.
Lemma both_nothing : forall ps, both nothing nothing ps -> nothing ps.
Proof. intros ps (p & q & -> & -> & ->). reflexivity. Qed.
Lemma nothing_both : forall (P : list ppair -> Prop) ps, both nothing P ps -> P ps.
Proof. intros P ps (p & q & -> & -> & H). exact H. Qed.
Lemma quiet_seq : forall a x y r v1 v P, skips a = false -> exactly a x r v1 nothing -> exactly a y v1 v P -> exactly a (Q_seq x y) r v P.
Proof.
  intros a x y r v1 v P N X Y. eapply exactly_weaken; [eapply exactly_seq; [apply plain_yields; [exact N|exact X]|exact Y]|]. apply nothing_both.
Qed.
Lemma quiet_step : forall a x v1 v2 v, skips a = false -> exactly a x v1 v2 nothing -> steps a x v2 v nothing -> steps a x v1 v nothing.
Proof.
  intros a x v1 v2 v N X Y. eapply steps_weaken; [eapply steps_app; [apply steps_one, plain_yields; [exact N|exact X]|exact Y]|]. apply both_nothing.
Qed.

Lemma fails_first : forall a c t d v, c <> d -> fails a (Q_str (c :: t)) (d :: v).
Proof. intros a c t d v N. apply fails_str. cbn [strip]. apply N.eqb_neq in N. rewrite N. reflexivity. Qed.

(** * White space and comments. *)
Local Notation white_rule := (Q_rule (Silent S_whitespace)).
Local Notation comment_rule := (Q_rule (Silent S_comment)).
Definition comments : qexpr := Q_seq comment_rule (Q_rep white_rule).
Lemma newline_lf : forall r, exactly Atomic (Q_rule (Silent S_newline)) (10%N :: r) r nothing.
Proof. intro r. apply exactly_silent. apply exactly_choice1. apply (exactly_str Atomic [10%N]). Qed.
Lemma newline_crlf : forall r, exactly Atomic (Q_rule (Silent S_newline)) (13 :: 10 :: r)%N r nothing.
Proof. intro r. apply exactly_silent. apply exactly_choice2; [apply fails_str; reflexivity|]. apply (exactly_str Atomic [13; 10]%N). Qed.
Lemma newline_not : forall a r, in_class [(0, 9); (11, 12); (14, 1114111)]%N r -> fails a (Q_rule (Silent S_newline)) r.
Proof. intros a r C. no_match. Qed.
Lemma white_char : forall c r, In c [32; 9; 10]%N -> exactly Atomic white_rule (c :: r) r nothing.
Proof.
  intros c r [<-|[<-|[<-|[]]]]; apply exactly_silent.
  - apply exactly_choice1. apply (exactly_str _ (lit " ")).
  - apply exactly_choice2; [apply fails_str; reflexivity|]. apply exactly_choice1. apply (exactly_str _ [9%N]).
  - apply exactly_choice2; [apply fails_str; reflexivity|]. apply exactly_choice2; [apply fails_str; reflexivity|]. apply newline_lf.
Qed.
Lemma white_return : forall r, exactly Atomic white_rule (13 :: 10 :: r)%N r nothing.
Proof.
  intro r. apply exactly_silent. apply exactly_choice2; [apply fails_str; reflexivity|]. apply exactly_choice2; [apply fails_str; reflexivity|]. apply newline_crlf.
Qed.
Lemma strip_none : forall t r, ~ starts t r -> strip t r = None.
Proof. intros t r N. destruct (strip t r) as [v|] eqn:E; [|reflexivity]. destruct N. exists v. apply strip_some, E. Qed.
Lemma starts_more : forall t r v, length t <= length r -> starts t (r ++ v) -> starts t r.
Proof.
  induction t as [|c t IH]; intros r v L (z & E); [exists r; reflexivity|]. destruct r as [|d r]; [cbn [length] in L; lia|].
  cbn [app] in E. injection E as -> E. destruct (IH r v) as (z' & ->); [cbn [length] in L; lia|exists z; exact E|]. exists z'. reflexivity.
Qed.
Lemma comment_inside : forall u, comment_body u -> forall r,
  steps Atomic (Q_choice (Q_rule (Silent S_block_comment)) (Q_seq (Q_not (Q_str (lit "*/"))) Q_any)) (u ++ lit "*/" ++ r) (lit "*/" ++ r) nothing.
Proof.
  intros u B. induction B as [|c u N1 N2 B IH|u v B1 IH1 B2 IH2]; intro r.
  - apply steps_nil.
  - cbn [app]. eapply quiet_step; [reflexivity| |apply IH]. apply exactly_choice2.
    + apply fails_rule. apply fails_seq1. apply fails_str. apply strip_none. intro S. apply N1.
      apply (starts_more _ (c :: u ++ lit "*/") r); [cbn [length]; rewrite app_length; cbn; lia|]. cbn [app]. rewrite <- app_assoc. exact S.
    + eapply quiet_seq; [reflexivity|apply exactly_not|apply exactly_any]. apply fails_str, strip_none. intro S. apply N2.
      apply (starts_more _ (c :: u ++ lit "*/") r); [cbn [length]; rewrite app_length; cbn; lia|]. cbn [app]. rewrite <- app_assoc. exact S.
  - rewrite <- !app_assoc. eapply quiet_step; [reflexivity| |apply IH2]. apply exactly_choice1, exactly_silent. cbn [inside_of silent_body].
    eapply quiet_seq; [reflexivity|apply (exactly_str _ (lit "/*"))|]. eapply quiet_seq; [reflexivity| |apply exactly_str].
    apply steps_exactly_rep; [reflexivity|apply IH1|]. apply fails_choice; [apply fails_rule, fails_seq1, fails_str; reflexivity|].
    apply fails_seq1. eapply fails_not. apply exactly_str.
Qed.
Lemma block_comment : forall u r, comment_body u -> exactly Atomic (Q_rule (Silent S_block_comment)) (lit "/*" ++ u ++ lit "*/" ++ r) r nothing.
Proof.
  intros u r B. apply exactly_silent. cbn [inside_of silent_body].
  eapply quiet_seq; [reflexivity|apply (exactly_str _ (lit "/*"))|]. eapply quiet_seq; [reflexivity| |apply exactly_str].
  apply steps_exactly_rep; [reflexivity|apply comment_inside, B|]. apply fails_choice; [apply fails_rule, fails_seq1, fails_str; reflexivity|].
  apply fails_seq1. eapply fails_not. apply exactly_str.
Qed.
(** The rest of a line; what follows is a line end or nothing. *)
Lemma newline_fails : forall a c r, c <> 10%N -> c <> 13%N -> fails a (Q_rule (Silent S_newline)) (c :: r).
Proof.
  intros a c r N1 N2. apply fails_rule. apply fails_choice; apply fails_str; cbn [strip]; rewrite N.eqb_sym; apply N.eqb_neq in N1, N2; rewrite ?N1, ?N2; reflexivity.
Qed.
Definition stops (r : text) : Prop := r = [] \/ line_end r.
Lemma stops_newline : forall r, stops r -> r = [] \/ exists v, exactly Atomic (Q_rule (Silent S_newline)) r v nothing.
Proof.
  intros r [->|[(v & ->)|(v & ->)]]; [left; reflexivity|right; exists v..]; [apply newline_lf|apply newline_crlf].
Qed.
Lemma line_rest : forall a u r, skips a = false -> one_line u -> stops r ->
  exactly a (Q_rep (Q_seq (Q_not (Q_rule (Silent S_newline))) Q_any)) (u ++ r) r nothing.
Proof.
  intros a u r N (N1 & N2) S. apply steps_exactly_rep; [exact N| |].
  - induction u as [|c u IH]; [apply steps_nil|]. cbn [app]. eapply quiet_step; [exact N| |].
    + eapply quiet_seq; [exact N|apply exactly_not|apply exactly_any]. apply newline_fails; intro E; subst c; [apply N1|apply N2]; left; reflexivity.
    + apply IH; intro I; [apply N1|apply N2]; right; exact I.
  - destruct S as [->|S].
    + apply (fails_seq2 _ _ _ _ [] nothing); [|apply fails_any]. apply plain_yields; [exact N|]. apply exactly_not. no_match.
    + apply fails_seq1. destruct S as [(v & ->)|(v & ->)]; eapply fails_not; apply exactly_silent; cbn [inside_of silent_body].
      * apply exactly_choice1. apply (exactly_str _ [10%N]).
      * apply exactly_choice2; [apply fails_str; reflexivity|]. apply (exactly_str _ [13; 10]%N).
Qed.
Lemma starts_head : forall c r, ~ starts [c] r -> strip [c] r = None.
Proof. intros. apply strip_none. assumption. Qed.
Lemma head_app : forall c u r, ~ starts [c] u -> ~ starts [c] r -> ~ starts [c] (u ++ r).
Proof. intros c [|d u] r N M (v & E); [apply M; exists v; exact E|]. injection E as -> _. apply N. exists u. reflexivity. Qed.
Lemma stops_head : forall c r, c <> 10%N -> c <> 13%N -> stops r -> ~ starts [c] r.
Proof. intros c r N1 N2 [->|[(v & ->)|(v & ->)]] (z & E); [discriminate| |]; injection E as E _; congruence. Qed.
Lemma comment_line : forall u r, line_comment u -> stops r -> exactly Atomic comment_rule (lit "//" ++ u ++ r) r nothing.
Proof.
  intros u r (L & N1 & N2) S. apply exactly_silent. cbn [inside_of silent_body].
  apply exactly_choice2; [apply fails_rule, fails_seq1, fails_str; reflexivity|].
  eapply quiet_seq; [reflexivity| |].
  - eapply quiet_seq; [reflexivity|apply (exactly_str _ (lit "//"))|]. eapply quiet_seq; [reflexivity|apply exactly_not|apply line_rest; [reflexivity|exact L|exact S]].
    apply fails_choice; apply fails_str, strip_none; apply head_app; try assumption; apply stops_head; try assumption; discriminate.
  - destruct (stops_newline r S) as [->|(v & V)].
    + eapply exactly_and. apply exactly_choice2; [no_match|]. apply (exactly_quiet Atomic R_eoi []); [reflexivity|]. apply exactly_end.
    + eapply exactly_and. apply exactly_choice1. exact V.
Qed.

(** A text that starts with neither white space nor a comment. *)
Definition solid (v : text) : Prop := fails Atomic white_rule v /\ fails Atomic comment_rule v.
(** What is left after white space: a solid text, or nothing after a last comment. *)
Definition rests (v v' : text) : Prop := (solid v /\ v' = v) \/ (v' = [] /\ exists u, line_comment u /\ v = lit "//" ++ u).
Lemma white_none : forall r, in_class [(0, 8); (11, 12); (14, 31); (33, 1114111)]%N r -> fails Atomic white_rule r.
Proof. intros r C. no_match. Qed.
Definition not_blank : list range := [(0, 8); (11, 12); (14, 31); (33, 46); (48, 1114111)]%N.
Lemma solid_class : forall r, in_class not_blank r -> solid r.
Proof. intros r C. split; no_match. Qed.
Lemma solid_doc : forall c r, c = 47%N \/ c = 33%N -> solid (47 :: 47 :: c :: r)%N.
Proof.
  intros c r H. split; [no_match|]. apply fails_rule. apply fails_choice; [apply fails_rule, fails_seq1, fails_str; reflexivity|].
  apply fails_seq1. eapply fails_seq2; [apply plain_yields; [reflexivity|apply (exactly_str _ (lit "//"))]|]. apply fails_seq1.
  destruct H as [->| ->]; eapply fails_not.
  - apply exactly_choice1. apply (exactly_str _ (lit "/")).
  - apply exactly_choice2; [apply fails_str; reflexivity|]. apply (exactly_str _ (lit "!")).
Qed.
Lemma white_reps : forall r v, steps Atomic white_rule r v nothing -> fails Atomic white_rule v -> exactly Atomic (Q_rep white_rule) r v nothing.
Proof. intros r v H F. apply steps_exactly_rep; [reflexivity|exact H|exact F]. Qed.
Lemma blank_steps : forall w, blank w -> forall v v', rests v v' -> exists m,
  steps Atomic white_rule (w ++ v) m nothing /\ fails Atomic white_rule m /\ steps Atomic comments m v' nothing.
Proof.
  intros w B. induction B as [|c w C B IH|w B IH|u w U B IH|u w U L B IH]; intros v v' R.
  - destruct R as [(S & ->)|(-> & u & U & ->)].
    + exists v. split; [apply steps_nil|]. split; [apply S|apply steps_nil].
    + exists (lit "//" ++ u). split; [apply steps_nil|]. split; [apply white_none; by_class|].
      eapply quiet_step; [reflexivity| |apply steps_nil]. eapply quiet_seq; [reflexivity| |apply white_reps; [apply steps_nil|no_match]].
      pose proof (comment_line u [] U (or_introl eq_refl)) as H. rewrite app_nil_r in H. exact H.
  - destruct (IH v v' R) as (m & W & F & S). exists m. split; [|split; assumption]. cbn [app]. eapply quiet_step; [reflexivity|apply white_char, C|exact W].
  - destruct (IH v v' R) as (m & W & F & S). exists m. split; [|split; assumption]. cbn [app]. eapply quiet_step; [reflexivity|apply white_return|exact W].
  - destruct (IH v v' R) as (m & W & F & S). exists (lit "/*" ++ u ++ lit "*/" ++ w ++ v). rewrite <- !app_assoc. split; [apply steps_nil|].
    split; [apply white_none; by_class|]. eapply quiet_step; [reflexivity| |exact S]. eapply quiet_seq; [reflexivity| |apply white_reps; [exact W|exact F]].
    apply exactly_silent. apply exactly_choice1. apply block_comment, U.
  - destruct (IH v v' R) as (m & W & F & S). exists (lit "//" ++ u ++ w ++ v). rewrite <- !app_assoc. split; [apply steps_nil|].
    split; [apply white_none; by_class|]. eapply quiet_step; [reflexivity| |exact S]. eapply quiet_seq; [reflexivity| |apply white_reps; [exact W|exact F]].
    apply comment_line; [exact U|]. right. destruct L as [(z & ->)|(z & ->)]; [left; exists (z ++ v)|right; exists (z ++ v)]; reflexivity.
Qed.
Lemma solid_nil : solid [].
Proof. apply solid_class, class_nil. Qed.
Lemma rests_solid : forall v v', rests v v' -> solid v'.
Proof. intros v v' [(S & ->)|(-> & _)]; [exact S|apply solid_nil]. Qed.
Lemma skip_blank : forall w v v', blank w -> rests v v' -> exactly Atomic skip_body (w ++ v) v' nothing.
Proof.
  intros w v v' B R. destruct (blank_steps w B v v' R) as (m & W & F & S). unfold skip_body.
  eapply quiet_seq; [reflexivity|apply white_reps; [exact W|exact F]|]. apply steps_exactly_rep; [reflexivity|exact S|].
  apply fails_seq1. apply (rests_solid _ _ R).
Qed.
Lemma passes_rests : forall a w v v', skips a = true -> blank w -> rests v v' -> passes a (w ++ v) v'.
Proof.
  intros a w v v' N B R s E. destruct (skip_blank w v v' B R s E) as (s' & ps & A & S & E' & _). exists s'. split; [|exact E'].
  split; [exact S|]. rewrite N. exists ps. exact A.
Qed.
Lemma passes_blank : forall w v, blank w -> solid v -> passes NonAtomic (w ++ v) v.
Proof. intros w v B S. apply passes_rests; [reflexivity|exact B|]. left. auto. Qed.
Lemma passes_solid : forall v, solid v -> passes NonAtomic v v.
Proof. intros v S. apply (passes_blank []); [constructor|exact S]. Qed.

(** * Tokens. *)
Definition calm (ps : list ppair) : Prop := Forall tame ps.
Lemma calm_nothing : forall ps, nothing ps -> calm ps.
Proof. intros ps ->. constructor. Qed.
Lemma calm_both : forall (P Q : list ppair -> Prop), (forall ps, P ps -> calm ps) -> (forall ps, Q ps -> calm ps) -> forall ps, both P Q ps -> calm ps.
Proof. intros P Q X Y ps (p & q & -> & A & B). apply Forall_app. split; [apply X, A|apply Y, B]. Qed.
Lemma tame_plain : forall r u i j l, r <> R_character -> r <> R_raw_string -> calm l -> tame (mkPPair r u i j l).
Proof. intros r u i j l N1 N2 C. constructor; cbn [pp_rule pp_str pp_inner]; [intro; contradiction|intro; contradiction|exact C]. Qed.
Lemma calm_token : forall r u, r <> R_character -> r <> R_raw_string -> forall ps, token r u calm ps -> calm ps.
Proof. intros r u N1 N2 ps (i & j & l & -> & C). constructor; [apply tame_plain; assumption|constructor]. Qed.
Lemma token_calm : forall r u (P : list ppair -> Prop) ps, (forall l, P l -> calm l) -> token r u P ps -> token r u calm ps.
Proof. intros r u P ps H (i & j & l & -> & X). exists i, j, l. split; [reflexivity|apply H, X]. Qed.
Lemma symbol : forall a r t v, makes a r = true -> loud_body r = Q_str t -> exactly a (Q_rule (Loud r)) (t ++ v) v (token r t calm).
Proof.
  intros a r t v M B. eapply exactly_weaken; [apply exactly_loud; [exact M|rewrite B; apply exactly_str]|].
  intro ps. apply token_calm, calm_nothing.
Qed.
Definition follow : list range :=
  [(32, 32); (9, 9); (10, 10); (13, 13); (47, 47); (63, 63); (42, 42); (43, 43); (123, 123); (126, 126); (94, 94); (45, 45); (124, 124);
   (41, 41); (44, 44); (125, 125); (93, 93); (40, 40); (91, 91); (58, 58); (46, 46); (61, 61)]%N.
Lemma alpha_char : forall c v, (97 <= c <= 122 \/ 65 <= c <= 90)%N -> exactly Atomic (Q_rule (Silent S_alpha)) (c :: v) v nothing.
Proof.
  intros c v [L|L]; apply exactly_silent; [apply exactly_choice1|apply exactly_choice2]; try (apply exactly_chars; exact L).
  apply fails_chars. intros d r E. injection E as <- _. lia.
Qed.
Lemma name_chars : forall c v, name_char c -> exactly Atomic (Q_choice (Q_str (lit "_")) (Q_rule (Silent S_alpha_num))) (c :: v) v nothing.
Proof.
  intros c v N. destruct (N.eq_dec c 95) as [->|D]; [apply exactly_choice1; apply (exactly_str _ (lit "_"))|].
  assert (fails Atomic (Q_str (lit "_")) (c :: v)) as F.
  { apply (fails_first _ 95%N []). congruence. }
  apply exactly_choice2; [exact F|]. apply exactly_silent. unfold name_char in N.
  destruct N as [E|[L|[L|L]]]; [contradiction|apply exactly_choice1, alpha_char; lia|apply exactly_choice1, alpha_char; lia|].
  apply exactly_choice2; [|apply exactly_chars; exact L]. apply fails_rule. apply fails_choice; apply fails_chars; intros d r E; injection E as <- _; lia.
Qed.
Lemma identifier_body : forall u v, identifier_text u -> in_class follow v -> exactly Atomic (loud_body R_identifier) (u ++ v) v nothing.
Proof.
  intros u v (c & r & -> & C & N) F. cbn [app loud_body]. eapply quiet_seq; [reflexivity| |].
  - destruct C as [->|C]; [apply exactly_choice1, (exactly_str _ (lit "_"))|]. apply exactly_choice2; [|apply alpha_char, C].
    apply (fails_first _ 95%N []). lia.
  - apply steps_exactly_rep; [reflexivity| |no_match]. induction N as [|d r D N IH]; [apply steps_nil|]. cbn [app].
    eapply quiet_step; [reflexivity|apply name_chars, D|exact IH].
Qed.
Lemma identifier_token : forall u v, identifier_text u -> in_class follow v ->
  exactly NonAtomic (Q_rule (Loud R_identifier)) (u ++ v) v (token R_identifier u calm).
Proof.
  intros u v I F. eapply exactly_weaken; [apply exactly_loud; [reflexivity|apply identifier_body; assumption]|].
  intro ps. apply token_calm, calm_nothing.
Qed.
Lemma digits_rep : forall a t v, skips a = false -> Forall (fun c => 48 <= c <= 57)%N t -> in_class follow v ->
  exactly a (Q_rep (Q_chars 48%N 57%N)) (t ++ v) v nothing.
Proof.
  intros a t v N D F. apply steps_exactly_rep; [exact N| |no_match]. induction D as [|c t C D IH]; [apply steps_nil|]. cbn [app].
  eapply quiet_step; [exact N|apply exactly_chars, C|exact IH].
Qed.
Lemma number_body : forall u n v, notation u n -> in_class follow v -> exactly Atomic (loud_body R_number) (u ++ v) v nothing.
Proof.
  intros u n v (D & _ & N & Z) F. destruct u as [|c u]; [contradiction|]. inversion D as [|? ? C D']; subst. cbn [app loud_body].
  destruct (N.eq_dec c 48) as [->|X].
  - rewrite (Z u eq_refl). apply exactly_choice1. apply (exactly_str _ (lit "0")).
  - apply exactly_choice2; [apply (fails_first _ 48%N []); congruence|].
    eapply quiet_seq; [reflexivity|apply exactly_chars; lia|]. apply digits_rep; [reflexivity|exact D'|exact F].
Qed.
Lemma number_token : forall u n v, notation u n -> in_class follow v ->
  exactly NonAtomic (Q_rule (Loud R_number)) (u ++ v) v (token R_number u calm).
Proof.
  intros u n v I F. eapply exactly_weaken; [apply exactly_loud; [reflexivity|eapply number_body; eassumption]|].
  intro ps. apply token_calm, calm_nothing.
Qed.
Lemma number_quiet : forall u n v, notation u n -> in_class follow v -> exactly Atomic (Q_rule (Loud R_number)) (u ++ v) v nothing.
Proof. intros u n v I F. apply exactly_quiet; [reflexivity|]. eapply number_body; eassumption. Qed.
Lemma digit_first : forall u n, notation u n -> exists c r, u = c :: r /\ (48 <= c <= 57)%N.
Proof. intros [|c u] n (D & _ & N & _); [contradiction|]. inversion D; subst. eauto. Qed.
Lemma integer_token : forall u z v, integer_text u z -> in_class follow v ->
  exactly NonAtomic (Q_rule (Loud R_integer)) (u ++ v) v (token R_integer u calm).
Proof.
  intros u z v I F. eapply exactly_weaken; [apply exactly_loud; [reflexivity|]|].
  - cbn [inside_of loud_kind loud_body]. destruct I as [u n H|u n H|u n H].
    + eapply quiet_seq; [reflexivity| |eapply number_quiet; eassumption]. apply exactly_opt_none.
      destruct (digit_first u n H) as (c & r & -> & C). cbn [app]. apply fails_choice; [apply (fails_first _ 43%N [])|apply (fails_first _ 45%N [])]; lia.
    + eapply quiet_seq; [reflexivity| |eapply number_quiet; eassumption]. apply exactly_opt, exactly_choice1. apply (exactly_str _ (lit "+")).
    + eapply quiet_seq; [reflexivity| |eapply number_quiet; eassumption]. apply exactly_opt, exactly_choice2; [apply fails_str; reflexivity|]. apply (exactly_str _ (lit "-")).
  - intro ps. apply token_calm, calm_nothing.
Qed.

(** Escapes and strings. *)
Lemma hex_char : forall c v, is_hex c -> exactly Atomic (Q_rule (Loud R_hex_digit)) (c :: v) v nothing.
Proof.
  intros c v (d & H). apply (exactly_quiet Atomic R_hex_digit [c]); [reflexivity|]. cbn [inside_of loud_kind loud_body app]. unfold hex_digit in H.
  destruct H as [(L & _)|[(L & _)|(L & _)]].
  - apply exactly_choice1, exactly_chars, L.
  - apply exactly_choice2; [apply fails_chars; intros x r E; injection E as <- _; lia|]. apply exactly_choice1, exactly_chars, L.
  - apply exactly_choice2; [apply fails_chars; intros x r E; injection E as <- _; lia|].
    apply exactly_choice2; [apply fails_chars; intros x r E; injection E as <- _; lia|]. apply exactly_chars, L.
Qed.
Lemma hex_brace : forall a v, fails a (Q_rule (Loud R_hex_digit)) (125%N :: v).
Proof. intros a v. no_match. Qed.
Lemma hex_all : forall t n, hex t n -> t <> [] /\ Forall is_hex t.
Proof.
  intros t n H. induction H as [c d H|t n c d H (IH1 & IH2) D].
  - split; [discriminate|]. constructor; [exists d; exact H|constructor].
  - split; [destruct t; discriminate|]. apply Forall_app. split; [exact IH2|]. constructor; [exists d; exact D|constructor].
Qed.
Fixpoint opt_hex (n : nat) : qexpr :=
  match n with 0 => Q_opt (Q_rule (Loud R_hex_digit)) | S k => Q_seq (Q_opt (Q_rule (Loud R_hex_digit))) (opt_hex k) end.
Lemma opt_hexes : forall k t v, length t <= S k -> Forall is_hex t -> exactly Atomic (opt_hex k) (t ++ 125%N :: v) (125%N :: v) nothing.
Proof.
  induction k as [|k IH]; intros t v L F; cbn [opt_hex].
  - destruct t as [|c [|? ?]]; [|inversion F; subst|cbn [length] in L; lia]; cbn [app].
    + apply exactly_opt_none, hex_brace.
    + apply exactly_opt, hex_char. assumption.
  - destruct t as [|c t]; [|inversion F; subst]; cbn [app].
    + eapply quiet_seq; [reflexivity|apply exactly_opt_none, hex_brace|]. apply (IH []); [cbn [length]; lia|constructor].
    + eapply quiet_seq; [reflexivity|apply exactly_opt, hex_char; assumption|]. apply IH; [cbn [length] in L; lia|assumption].
Qed.
Lemma quiet_symbol : forall r t v, loud_body r = Q_str t -> makes Atomic r = false -> exactly Atomic (Q_rule (Loud r)) (t ++ v) v nothing.
Proof. intros r t v B M. apply exactly_quiet; [exact M|]. rewrite B. apply exactly_str. Qed.
Lemma escape_body : forall e v, escape_syntax e -> exactly Atomic (Q_rule (Loud R_escape)) (e ++ v) v nothing.
Proof.
  intros e v H. apply exactly_quiet; [reflexivity|]. cbn [inside_of loud_kind loud_body].
  destruct H as [e c L|h1 h2 H1 H2|t L F].
  - eapply quiet_seq; [reflexivity|apply (exactly_str _ [92%N])|]. destruct L;
      repeat first [apply exactly_choice1; apply (exactly_str _ [_]) | apply exactly_choice2; [apply fails_str; reflexivity|]].
  - eapply quiet_seq; [reflexivity|apply (exactly_str _ [92%N])|]. cbn [app].
    do 7 (apply exactly_choice2; [apply fails_str; reflexivity|]). apply exactly_choice1.
    apply (exactly_quiet Atomic R_code [120%N; h1; h2]); [reflexivity|]. cbn [inside_of loud_kind loud_body app].
    eapply quiet_seq; [reflexivity|apply (exactly_str _ (lit "x"))|]. eapply quiet_seq; [reflexivity|apply hex_char, H1|apply hex_char, H2].
  - rewrite <- !app_assoc. eapply quiet_seq; [reflexivity|apply (exactly_str _ [92%N])|]. cbn [app].
    do 7 (apply exactly_choice2; [apply fails_str; reflexivity|]). apply exactly_choice2; [no_match|].
    change (117 :: 123 :: t ++ 125 :: v)%N with ([117; 123]%N ++ t ++ [125%N] ++ v). rewrite app_assoc, (app_assoc (_ ++ _)).
    apply (exactly_quiet Atomic R_unicode); [reflexivity|]. cbn [inside_of loud_kind loud_body]. rewrite <- !app_assoc. cbn [app].
    eapply quiet_seq; [reflexivity|apply (exactly_str _ (lit "u"))|]. eapply quiet_seq; [reflexivity|apply (quiet_symbol _ (lit "{")); reflexivity|].
    eapply quiet_seq; [reflexivity| |apply (quiet_symbol _ (lit "}")); reflexivity].
    destruct t as [|c t]; [cbn [length] in L; lia|]. inversion F; subst. cbn [app].
    eapply quiet_seq; [reflexivity|apply hex_char; assumption|]. apply (opt_hexes 4); [cbn [length] in L; lia|assumption].
Qed.
Local Notation plain_char := (Q_seq (Q_not (Q_choice (Q_str [34%N]) (Q_str [92%N]))) Q_any).
Lemma escape_first : forall e, escape_syntax e -> exists r, e = 92%N :: r.
Proof. intros e [x c _|h1 h2 _ _|t _ _]; eexists; reflexivity. Qed.
Lemma inner_parts : forall s, inner_str s -> forall v, exists m, steps Atomic plain_char (s ++ 34%N :: v) m nothing /\ fails Atomic plain_char m /\
  exactly Atomic (Q_opt (Q_seq (Q_rule (Loud R_escape)) (Q_rule (Loud R_inner_str)))) m (34%N :: v) nothing.
Proof.
  intros s H. induction H as [|c s N1 N2 H IH|e s E H IH]; intro v.
  - exists (34%N :: v). split; [apply steps_nil|]. split.
    + apply fails_seq1. eapply fails_not. apply exactly_choice1. apply (exactly_str _ [34%N]).
    + apply exactly_opt_none, fails_seq1. no_match.
  - destruct (IH v) as (m & S & F & X). exists m. split; [|split; assumption]. cbn [app]. eapply quiet_step; [reflexivity| |exact S].
    eapply quiet_seq; [reflexivity|apply exactly_not|apply exactly_any]. apply fails_choice; apply fails_first; congruence.
  - destruct (IH v) as (m & S & F & X). exists (e ++ s ++ 34%N :: v). rewrite <- app_assoc. split; [apply steps_nil|]. split.
    + destruct (escape_first e E) as (r & ->). apply fails_seq1. eapply fails_not. apply exactly_choice2; [apply fails_str; reflexivity|]. apply (exactly_str _ [92%N]).
    + apply exactly_opt. eapply quiet_seq; [reflexivity|apply escape_body, E|]. apply exactly_quiet; [reflexivity|]. cbn [inside_of loud_kind loud_body].
      eapply quiet_seq; [reflexivity| |exact X]. apply steps_exactly_rep; [reflexivity|exact S|exact F].
Qed.
Lemma loud_calm : forall a r u v P, makes a r = true -> exactly (inside_of a (Loud r)) (loud_body r) (u ++ v) v P -> (forall ps, P ps -> calm ps) ->
  exactly a (Q_rule (Loud r)) (u ++ v) v (token r u calm).
Proof.
  intros a r u v P M X C. eapply exactly_weaken; [apply exactly_loud; [exact M|exact X]|]. intro ps. apply token_calm, C.
Qed.
Ltac calm_parts := repeat first [apply calm_both | apply calm_nothing | apply calm_token; discriminate].
Lemma inner_token : forall s v, inner_str s -> exactly CompoundAtomic (Q_rule (Loud R_inner_str)) (s ++ 34%N :: v) (34%N :: v) (token R_inner_str s calm).
Proof.
  intros s v H. destruct (inner_parts s H v) as (m & S & F & X). eapply loud_calm; [reflexivity| |apply calm_nothing]. cbn [inside_of loud_kind loud_body].
  eapply quiet_seq; [reflexivity| |exact X]. apply steps_exactly_rep; [reflexivity|exact S|exact F].
Qed.
Lemma compound_seq : forall x y r v1 v P Q, exactly CompoundAtomic x r v1 P -> exactly CompoundAtomic y v1 v Q -> exactly CompoundAtomic (Q_seq x y) r v (both P Q).
Proof. intros x y r v1 v P Q X Y. eapply exactly_seq; [apply plain_yields; [reflexivity|exact X]|exact Y]. Qed.
Lemma string_token : forall a s v, inner_str s -> exactly a (Q_rule (Loud R_string)) (34%N :: s ++ 34%N :: v) v (token R_string (34%N :: s ++ [34%N]) calm).
Proof.
  intros a s v H. replace (34%N :: s ++ 34%N :: v) with ((34%N :: s ++ [34%N]) ++ v) by (cbn [app]; rewrite <- app_assoc; reflexivity).
  eapply loud_calm; [destruct a; reflexivity| |]; cbn [inside_of loud_kind loud_body app].
  - rewrite <- app_assoc. cbn [app].
    eapply compound_seq; [apply (symbol _ R_quote [34%N]); reflexivity|]. eapply compound_seq; [apply inner_token, H|]. apply (symbol _ R_quote [34%N]); reflexivity.
  - calm_parts.
Qed.
Lemma insensitive_token : forall a s v, inner_str s ->
  exactly a (Q_rule (Loud R_insensitive_string)) (105%N :: 34%N :: s ++ 34%N :: v) v (token R_insensitive_string (105%N :: 34%N :: s ++ [34%N]) calm).
Proof.
  intros a s v H. replace (105%N :: 34%N :: s ++ 34%N :: v) with ((105%N :: 34%N :: s ++ [34%N]) ++ v) by (cbn [app]; rewrite <- app_assoc; reflexivity).
  eapply loud_calm; [destruct a; reflexivity| |]; cbn [inside_of loud_kind loud_body app].
  - rewrite <- app_assoc. cbn [app]. eapply compound_seq; [apply (exactly_str _ (lit "i"))|]. apply string_token, H.
  - calm_parts.
Qed.
Lemma character_token : forall a s v, char_text s -> exactly a (Q_rule (Loud R_character)) (39%N :: s ++ 39%N :: v) v (token R_character (39%N :: s ++ [39%N]) calm).
Proof.
  intros a s v H. replace (39%N :: s ++ 39%N :: v) with ((39%N :: s ++ [39%N]) ++ v) by (cbn [app]; rewrite <- app_assoc; reflexivity).
  eapply loud_calm; [destruct a; reflexivity| |]; cbn [inside_of loud_kind loud_body app].
  - rewrite <- app_assoc. cbn [app].
    eapply compound_seq; [apply (symbol _ R_single_quote (lit "'")); reflexivity|]. eapply compound_seq; [|apply (symbol _ R_single_quote (lit "'")); reflexivity].
    eapply loud_calm; [reflexivity| |apply calm_nothing]. cbn [inside_of loud_kind loud_body]. destruct H as [H|(c & N & ->)].
    + apply exactly_choice1, escape_body, H.
    + cbn [app]. apply exactly_choice2; [|apply exactly_any]. apply fails_rule, fails_seq1, fails_first. congruence.
  - calm_parts.
Qed.
Lemma escape_written : forall e c, escape hex e c -> escape_syntax e.
Proof.
  intros e c [x d L|h1 h2 n H _|t n H L _].
  - econstructor. exact L.
  - apply hex_all in H as (_ & F). inversion F as [|? ? H1 F']; subst. inversion F' as [|? ? H2 F'']; subst. constructor; assumption.
  - apply hex_all in H as (N & F). constructor; [|exact F]. destruct t; [contradiction|cbn [length] in *; lia].
Qed.
Lemma documented_inner : forall s r, documented s r -> inner_str s.
Proof.
  intros s r H. induction H as [|c s r N1 N2 H IH|e c s r E H IH]; [constructor|constructor; assumption|constructor; [eapply escape_written, E|exact IH]].
Qed.
Lemma char_written : forall s c, char_meaning s c -> char_text s.
Proof. intros s c [E|(N & ->)]; [left; eapply escape_written, E|right; exists c; auto]. Qed.

(** Raw strings without number signs. *)
Lemma ans_not1 : forall a x s t, ans a x s (Some t) -> ans a (Q_not x) s None.
Proof. intros a x s t (k & H). exists (S k). cbn [qmatch]. rewrite H. reflexivity. Qed.
Lemma ans_not2 : forall a x s, ans a x s None -> ans a (Q_not x) s (Some (s, [])).
Proof. intros a x s (k & H). exists (S k). cbn [qmatch]. rewrite H. reflexivity. Qed.
Lemma ans_peek_empty : forall a s st, q_stack s = [] :: st -> exists s', ans a Q_peek s (Some (s', [])) /\ q_rest s' = q_rest s.
Proof.
  intros a s st E. eexists. split; [exists 1; cbn [qmatch]; rewrite E; unfold eat; cbn [strip plain_match]; reflexivity|reflexivity].
Qed.
Lemma ans_pop_empty : forall a s st, q_stack s = [] :: st -> exists s', ans a Q_pop s (Some (s', [])) /\ q_rest s' = q_rest s /\ q_stack s' = st.
Proof.
  intros a s st E. eexists. split; [exists 1; cbn [qmatch]; rewrite E; unfold eat; cbn [strip plain_match q_pos q_rest]; reflexivity|split; reflexivity].
Qed.
Lemma ans_push : forall a x s s' ps, ans a x s (Some (s', ps)) -> ans a (Q_push x) s (Some (mkQ (q_pos s') (q_rest s') (taken s s' :: q_stack s'), ps)).
Proof. intros a x s s' ps (k & H). exists (S k). cbn [qmatch]. rewrite H. reflexivity. Qed.
Lemma skipped_quiet : forall a s, skips a = false -> skipped a s s.
Proof. intros a s N. split; [reflexivity|]. rewrite N. reflexivity. Qed.
Lemma ans_more_none : forall a x s, skips a = false -> ans a x s None -> ans a (Q_rep x) s (Some (s, [])) /\ ans a (Q_more x) s (Some (s, [])).
Proof.
  intros a x s N (k & H). split; exists (S k); cbn [qmatch]; [|rewrite N; cbn [qthen obind]]; rewrite H; reflexivity.
Qed.
Lemma ans_more_some : forall a x s s1 p o, skips a = false -> ans a x s (Some (s1, p)) -> ans a (Q_more x) s1 (Some o) ->
  ans a (Q_rep x) s (Some (fst o, p ++ snd o)) /\ ans a (Q_more x) s (Some (fst o, p ++ snd o)).
Proof.
  intros a x s s1 p (s2, q) N X Y. apply ans_more in X as (k1 & X). apply ans_more in Y as (k2 & Y).
  split; exists (S (k1 + k2)); cbn [qmatch]; [|rewrite N; cbn [qthen obind]]; rewrite X by lia; cbn [obind]; rewrite Y by lia; reflexivity.
Qed.
Local Notation raw_char := (Q_seq (Q_not (Q_seq (Q_str [34%N]) Q_peek)) Q_any).
Lemma raw_chars : forall st v u s, q_stack s = [] :: st -> q_rest s = u ++ 34%N :: v -> ~ In 34%N u ->
  exists s', q_stack s' = [] :: st /\ q_rest s' = 34%N :: v /\
    ans CompoundAtomic (Q_rep raw_char) s (Some (s', [])) /\ ans CompoundAtomic (Q_more raw_char) s (Some (s', [])).
Proof.
  induction u as [|c u IH]; intros s St E N; cbn [app] in E.
  - exists s. split; [exact St|]. split; [exact E|]. apply ans_more_none; [reflexivity|].
    destruct (exactly_str CompoundAtomic [34%N] v s E) as (s1 & p & A & S1 & _). rewrite <- S1 in St.
    destruct (ans_peek_empty CompoundAtomic s1 _ St) as (s2 & B & _).
    pose proof (ans_seq _ _ _ _ _ _ _ _ A (skipped_quiet CompoundAtomic s1 eq_refl) B) as C. apply ans_not1 in C.
    assert (forall x y s, ans CompoundAtomic x s None -> ans CompoundAtomic (Q_seq x y) s None) as L.
    { intros x y s0 (k & H). exists (S k). cbn [qmatch]. rewrite H. reflexivity. }
    apply L, C.
  - assert (ans CompoundAtomic (Q_not (Q_seq (Q_str [34%N]) Q_peek)) s (Some (s, []))) as A.
    { apply ans_not2. apply (fails_seq1 CompoundAtomic (Q_str [34%N]) Q_peek (c :: u ++ 34%N :: v)); [|exact E]. apply fails_first.
      intros <-. apply N. left. reflexivity. }
    destruct (exactly_any CompoundAtomic c (u ++ 34%N :: v) s E) as (s1 & p & B & S1 & E1 & ->).
    pose proof (ans_seq _ _ _ _ _ _ _ _ A (skipped_quiet CompoundAtomic s eq_refl) B) as C. cbn [app] in C. rewrite <- S1 in St.
    destruct (IH s1 St E1) as (s' & S' & E' & _ & M); [intro I; apply N; right; exact I|]. exists s'. split; [exact S'|]. split; [exact E'|].
    exact (ans_more_some CompoundAtomic _ _ _ _ _ eq_refl C M).
Qed.
Definition raw_pairs (u : text) (ps : list ppair) : Prop :=
  exists q1 content q2, ps = [q1; content; q2] /\ pp_rule q1 = R_quote /\ pp_str q1 = [34%N] /\ pp_inner q1 = [] /\
    pp_rule content = R_inner_raw_str /\ pp_str content = u /\ pp_inner content = [] /\ pp_rule q2 = R_quote /\ pp_inner q2 = [].
Lemma exactly_quote : forall v s, q_rest s = 34%N :: v -> exists s' i j, ans CompoundAtomic (Q_rule (Loud R_quote)) s (Some (s', [mkPPair R_quote [34%N] i j []])) /\
  q_stack s' = q_stack s /\ q_rest s' = v.
Proof.
  intros v s E. destruct (exactly_loud CompoundAtomic R_quote [34%N] v nothing eq_refl (exactly_str _ [34%N] v) s E) as (s' & p & A & S1 & E1 & (i & j & l & -> & ->)).
  exists s', i, j. auto.
Qed.
Lemma compound_ans : forall x y s s1 s2 p q, ans CompoundAtomic x s (Some (s1, p)) -> ans CompoundAtomic y s1 (Some (s2, q)) ->
  ans CompoundAtomic (Q_seq x y) s (Some (s2, p ++ q)).
Proof. intros x y s s1 s2 p q X Y. exact (ans_seq _ _ _ _ _ _ _ _ X (skipped_quiet CompoundAtomic s1 eq_refl) Y). Qed.
Lemma raw_token : forall a u v, ~ In 34%N u ->
  exactly a (Q_rule (Loud R_raw_string)) (114%N :: 34%N :: u ++ 34%N :: v) v (token R_raw_string (114%N :: 34%N :: u ++ [34%N]) (raw_pairs u)).
Proof.
  intros a u v N. replace (114%N :: 34%N :: u ++ 34%N :: v) with ((114%N :: 34%N :: u ++ [34%N]) ++ v) by (cbn [app]; rewrite <- app_assoc; reflexivity).
  apply exactly_loud; [destruct a; reflexivity|]. cbn [inside_of loud_kind loud_body app]. rewrite <- app_assoc. cbn [app]. intros s E.
  destruct (exactly_str CompoundAtomic (lit "r") (34%N :: u ++ 34%N :: v) s E) as (s1 & p1 & A1 & S1 & E1 & ->).
  assert (fails CompoundAtomic (Q_rule (Loud R_pound)) (34%N :: u ++ 34%N :: v)) as F by no_match.
  destruct (ans_more_none CompoundAtomic _ _ eq_refl (F s1 E1)) as (A2 & _). apply ans_push in A2.
  assert (taken s1 s1 = []) as T by (unfold taken; rewrite Nat.sub_diag; reflexivity). rewrite T in A2.
  set (s2 := mkQ (q_pos s1) (q_rest s1) ([] :: q_stack s1)) in *.
  destruct (exactly_quote (u ++ 34%N :: v) s2 E1) as (s3 & i3 & j3 & A3 & S3 & E3).
  destruct (raw_chars (q_stack s1) v u s3 S3 E3 N) as (s4 & S4 & E4 & A4 & _).
  destruct (exactly_quote v s4 E4) as (s5 & i5 & j5 & A5 & S5 & E5). rewrite S4 in S5.
  destruct (ans_pop_empty CompoundAtomic s5 _ S5) as (s6 & A6 & E6 & S6).
  exists s6. eexists. split; [|split; [rewrite S6; exact S1|split; [rewrite E6; exact E5|]]].
  - eapply compound_ans; [exact A1|]. eapply compound_ans; [exact A2|]. eapply compound_ans; [exact A3|].
    eapply compound_ans; [exact (ans_rule CompoundAtomic (Loud R_inner_raw_str) _ _ _ A4)|]. eapply compound_ans; [exact A5|exact A6].
  - cbn [app]. eexists _, _, _. split; [reflexivity|]. cbn [pp_rule pp_str pp_inner].
    assert (taken s3 s4 = u) as T34; [|rewrite T34; repeat split]. destruct A4 as (k & A4). apply match_moved in A4 as (w & Mo).
    rewrite (taken_moved _ _ _ Mo). destruct Mo as (Mo & _). rewrite E3, E4 in Mo. apply app_inv_tail in Mo. symmetry. exact Mo.
Qed.

(** Documentation. *)
Lemma doc_token : forall a r marker u v, (r = R_rule_doc /\ marker = lit "///") \/ (r = R_grammar_doc /\ marker = lit "//!") ->
  one_line u -> stops v -> exactly a (Q_rule (Loud r)) (marker ++ u ++ v) v (token r (marker ++ u) calm).
Proof.
  intros a r marker u v H L St. rewrite app_assoc.
  assert (forall u, one_line u -> exactly CompoundAtomic (Q_rule (Loud R_doc_content)) (u ++ v) v (token R_doc_content u calm)) as D.
  { intros u' L'. eapply loud_calm; [reflexivity| |apply calm_nothing]. apply line_rest; [reflexivity|exact L'|exact St]. }
  assert (exactly CompoundAtomic (Q_seq (Q_opt (Q_str (lit " "))) (Q_rule (Loud R_doc_content))) (u ++ v) v calm) as X.
  { destruct u as [|c u].
    - eapply exactly_weaken; [eapply compound_seq; [apply exactly_opt_none|apply D, L]|calm_parts]. cbn [app].
      destruct St as [->|[(z & ->)|(z & ->)]]; apply fails_str; reflexivity.
    - destruct (N.eq_dec c 32) as [->|X].
      + eapply exactly_weaken; [eapply compound_seq; [apply exactly_opt, (exactly_str _ (lit " "))|apply D]|calm_parts].
        destruct L as (L1 & L2). split; intro I; [apply L1|apply L2]; right; exact I.
      + eapply exactly_weaken; [eapply compound_seq; [apply exactly_opt_none|apply D, L]|calm_parts]. cbn [app]. apply (fails_first _ 32%N []). congruence. }
  destruct H as [(-> & ->)|(-> & ->)]; (eapply loud_calm; [destruct a; reflexivity|cbn [inside_of loud_kind loud_body]; rewrite <- app_assoc;
    eapply compound_seq; [apply exactly_str|exact X]|calm_parts; trivial]).
Qed.
