(** Proofs about the parser of grammar files: expressions are read as written. *)
From Coq Require Import String List NArith ZArith Arith Bool Lia.
From Verif Require Import Model_Text Model_Message Model_Meta Model_Pest2 Spec_Unescape Spec_Message Spec_Grammar Spec_Import
  Spec_Pest2 Spec_Written Proof_Pest2 Proof_First Proof_Tokens.
Import ListNotations.
Open Scope list_scope.
Local Notation "a ;; b" := (Q_seq a b) (at level 60, right associativity).
Local Notation "a // b" := (Q_choice a b) (at level 61, right associativity).
Local Notation "$ r" := (Q_rule (Loud r)) (at level 1, format "$ r").
Local Notation "# s" := (Q_rule (Silent s)) (at level 1, format "# s").

(** * White space between tokens. *)
Lemma blank_app : forall w, blank w -> forall w', blank w' -> blank (w ++ w').
Proof.
  intros w B. induction B as [|c w C B IH|w B IH|u w U B IH|u w U L B IH]; intros w' B'; [exact B'| | | |]; rewrite <- ?app_assoc; cbn [app].
  - apply Blank_char; [exact C|apply IH, B'].
  - apply Blank_return, IH, B'.
  - apply (Blank_block u (w ++ w')); [exact U|apply IH, B'].
  - apply (Blank_line u (w ++ w')); [exact U| |apply IH, B'].
    destruct L as [(z & ->)|(z & ->)]; [left|right]; exists (z ++ w'); reflexivity.
Qed.
Lemma blank_head : forall w, blank w -> w <> [] -> in_class [(32, 32); (9, 9); (10, 10); (13, 13); (47, 47)]%N w.
Proof.
  intros w [|c w' [<-|[<-|[<-|[]]]] _|w' _|u w' _ _|u w' _ _ _] N; [contradiction| | | | | |]; by_class.
Qed.
Lemma class_one : forall l c, subset [(c, c)] l = true -> (c <=? 1114111 = true)%N -> forall r, in_class l (c :: r).
Proof.
  intros l c S B r d r' E. injection E as <- <-. split; [apply N.leb_le, B|]. eapply subset_in; [exact S|]. unfold in_ranges. cbn [existsb fst snd].
  rewrite !N.leb_refl. reflexivity.
Qed.
Lemma blank_follow : forall w v, blank w -> in_class follow v -> in_class follow (w ++ v).
Proof.
  intros w v B F. destruct w as [|c w0] eqn:E; [exact F|]. rewrite <- E in *. apply class_app; [rewrite E; discriminate|].
  eapply class_sub; [|apply blank_head; [exact B|rewrite E; discriminate]]. reflexivity.
Qed.
Ltac by_solid := apply solid_class; by_class.
Lemma symbol_then : forall r t w v, makes NonAtomic r = true -> loud_body r = Q_str t -> blank w -> solid v ->
  yields NonAtomic $r (t ++ w ++ v) v (token r t calm).
Proof. intros r t w v M B W S. eapply exactly_yields; [apply symbol; assumption|]. apply passes_blank; assumption. Qed.
Lemma symbol_passes : forall r t v v', makes NonAtomic r = true -> loud_body r = Q_str t -> passes NonAtomic v v' ->
  yields NonAtomic $r (t ++ v) v' (token r t calm).
Proof. intros r t v v' M B W. eapply exactly_yields; [apply symbol; assumption|exact W]. Qed.

(** * Optional numbers. *)
Definition opt_pair {T : Type} (num : ppair -> T -> Prop) (x : option T) (ps : list ppair) : Prop :=
  calm ps /\ match x with None => ps = [] | Some n => exists p, ps = [p] /\ num p n end.
Lemma opt_token : forall (T : Type) (rule : grule) (num : ppair -> T -> Prop) (txt : text -> T -> Prop),
  rule <> R_character -> rule <> R_raw_string ->
  (forall u n v, txt u n -> in_class follow v -> exactly NonAtomic $rule (u ++ v) v (token rule u calm)) ->
  (forall u n i j l, txt u n -> num (mkPPair rule u i j l) n) ->
  (forall u n, txt u n -> in_class not_blank u /\ u <> []) ->
  forall w1 u x w2 v, blank w1 -> (x = None /\ u = []) \/ (exists n, x = Some n /\ txt u n) -> blank w2 -> solid v ->
  fails NonAtomic $rule v -> in_class follow v ->
  exists z, solid z /\ passes NonAtomic (w1 ++ u ++ w2 ++ v) z /\ yields NonAtomic (Q_opt $rule) z v (opt_pair num x).
Proof.
  intros T rule num txt N1 N2 X Y Z w1 u x w2 v B1 U B2 S F C. destruct U as [(-> & ->)|(n & -> & U)].
  - exists v. split; [exact S|]. split; [cbn [app]; rewrite app_assoc; apply passes_blank; [apply blank_app; assumption|exact S]|].
    eapply yields_weaken; [apply yields_opt_none; [exact F|apply passes_solid, S]|]. intros ps ->. split; [constructor|reflexivity].
  - exists (u ++ w2 ++ v). destruct (Z u n U) as (Z1 & Z2). assert (solid (u ++ w2 ++ v)) as S' by (apply solid_class, class_app; assumption).
    split; [exact S'|]. split; [apply passes_blank; assumption|]. apply yields_opt. eapply yields_weaken.
    + eapply exactly_yields; [apply X with (n := n); [exact U|apply blank_follow; assumption]|apply passes_blank; assumption].
    + intros ps H. split; [eapply calm_token; [| |exact H]; assumption|]. destruct H as (i & j & l & -> & _). eexists. split; [reflexivity|apply Y, U].
Qed.
Lemma digit_solid : forall u n, notation u n -> in_class not_blank u /\ u <> [].
Proof.
  intros u n H. destruct (digit_first u n H) as (c & r & -> & C). split; [|discriminate]. intros d r' E. injection E as <- <-. split; [lia|].
  unfold in_ranges, not_blank. cbn [existsb fst snd]. rewrite !orb_true_iff. right. right. right. right. left. apply andb_true_intro. split; apply N.leb_le; lia.
Qed.
Lemma opt_number : forall w1 u x w2 v, blank w1 -> w_number u x -> blank w2 -> solid v -> fails NonAtomic $R_number v -> in_class follow v ->
  exists z, solid z /\ passes NonAtomic (w1 ++ u ++ w2 ++ v) z /\ yields NonAtomic (Q_opt $R_number) z v (opt_pair number_pair x).
Proof.
  intros w1 u x w2 v B1 U. apply (opt_token N R_number number_pair notation); try discriminate; try assumption.
  - intros. eapply number_token; eassumption.
  - intros u' n i j l H. split; [reflexivity|exact H].
  - exact digit_solid.
  - destruct U as [u n H|]; [right; exists n; auto|left; auto].
Qed.
Lemma opt_integer : forall w1 u x w2 v, blank w1 -> w_integer u x -> blank w2 -> solid v -> fails NonAtomic $R_integer v -> in_class follow v ->
  exists z, solid z /\ passes NonAtomic (w1 ++ u ++ w2 ++ v) z /\ yields NonAtomic (Q_opt $R_integer) z v (opt_pair integer_pair x).
Proof.
  intros w1 u x w2 v B1 U. apply (opt_token Z R_integer integer_pair integer_text); try discriminate; try assumption.
  - intros. eapply integer_token; eassumption.
  - intros u' n i j l H. split; [reflexivity|exact H].
  - intros u' z [a n H|a n H|a n H]; [eapply digit_solid, H|split; [by_class|discriminate]..].
  - destruct U as [u n H|]; [right; exists n; auto|left; auto].
Qed.
Lemma bounds_opt : forall (T : Type) (num : ppair -> T -> Prop) x y p q r, opt_pair num x p -> opt_pair num y r -> pp_rule q = R_range_operator ->
  bounds num (p ++ q :: r) x y.
Proof.
  intros T num x y p q r (_ & X) (_ & Y) Q. destruct x as [x|], y as [y|]; try (destruct X as (p' & -> & X)); try (destruct Y as (r' & -> & Y)); subst; cbn [app];
    constructor; assumption.
Qed.

(** * Postfix operators. *)
Definition postfix_ops : qexpr := $R_optional_operator // $R_repeat_operator // $R_repeat_once_operator // $R_bounded_repeat.
Definition post_one (t t' : tree) (ps : list ppair) : Prop :=
  exists p, ps = [p] /\ tame p /\ forall n, tree_of n = t -> exists e, den_postfix p n e /\ tree_expr e = t'.
Lemma post_simple : forall r u f t t' ps, simple_postfix r f -> (forall n, tree_of n = t -> tree_expr (f n) = t') -> token r u calm ps -> post_one t t' ps.
Proof.
  intros r u f t t' ps S F (i & j & l & -> & C). eexists. split; [reflexivity|]. split; [apply tame_plain; [..|exact C]; intros ->; inversion S|].
  intros n E. exists (f n). split; [constructor; exact S|apply F, E].
Qed.
Lemma range_solid : forall v, solid (lit ".." ++ v).
Proof. intro v. by_solid. Qed.
Lemma brace_solid : forall v, solid (lit "}" ++ v).
Proof. intro v. by_solid. Qed.
Lemma post_bounded : forall l x y t c s i j o,
  calm l -> calm [o] -> calm [c] -> pp_rule c = R_closing_brace -> counts l x y -> sensible x y ->
  post_one t (T_times t x y) [mkPPair R_bounded_repeat s i j (o :: l ++ [c])].
Proof.
  intros l x y t c s i j o C1 C2 C3 R K S. eexists. split; [reflexivity|]. split.
  - apply tame_plain; [discriminate|discriminate|]. apply (Forall_app _ [o]). split; [exact C2|]. apply Forall_app. split; assumption.
  - intros n <-. exists (PRepRange n (mkRange x y)). split; [constructor; assumption|reflexivity].
Qed.
Lemma postfix_written : forall t p t', w_postfix t p t' -> forall r, exactly NonAtomic postfix_ops (p ++ r) r (post_one t t').
Proof.
  intros t p t' H r. unfold postfix_ops. destruct H as [t|t|t|t w w' u n B B' U Se|t w1 w2 w3 w4 u v x y B1 B2 B3 B4 U V Se].
  - apply exactly_choice1. eapply exactly_weaken; [apply (symbol _ R_optional_operator (lit "?")); reflexivity|]. intro ps. apply post_simple with (f := POpt); [constructor|]. intros n <-. reflexivity.
  - apply exactly_choice2; [no_match|]. apply exactly_choice1. eapply exactly_weaken; [apply (symbol _ R_repeat_operator (lit "*")); reflexivity|]. intro ps. apply post_simple with (f := PRep); [constructor|]. intros n <-. reflexivity.
  - do 2 (apply exactly_choice2; [no_match|]). apply exactly_choice1. eapply exactly_weaken; [apply (symbol _ R_repeat_once_operator (lit "+")); reflexivity|]. intro ps. apply post_simple with (f := PRepOnce); [constructor|]. intros n <-. reflexivity.
  - do 3 (apply exactly_choice2; [no_match|]). eapply exactly_weaken.
    + apply exactly_loud; [reflexivity|]. cbn [inside_of loud_kind loud_body]. rewrite <- !app_assoc.
      destruct (digit_solid u n U) as (D1 & D2).
      assert (solid (u ++ w' ++ lit "}" ++ r)) as S by (apply solid_class, class_app; assumption).
      assert (yields NonAtomic $R_number (u ++ w' ++ lit "}" ++ r) (lit "}" ++ r) (token R_number u calm)) as Y.
      { eapply exactly_yields; [eapply number_token; [exact U|]|apply passes_blank; [exact B'|apply brace_solid]]. apply blank_follow; [exact B'|by_class]. }
      eapply exactly_seq; [apply (symbol_then R_opening_brace (lit "{")); [reflexivity|reflexivity|exact B|exact S]|].
      eapply exactly_seq; [|apply (symbol _ R_closing_brace (lit "}")); reflexivity].
      apply yields_choice2; [|exact Y]. eapply fails_seq2; [apply yields_opt, Y|]. apply fails_seq1. no_match.
    + intros ps (i & j & l & -> & (o & l' & -> & O & (q & c & -> & Q & C))). destruct O as (? & ? & ? & -> & O). destruct Q as (? & ? & ? & -> & Q). destruct C as (? & ? & ? & -> & C).
      apply (post_bounded [_]); try (constructor; [apply tame_plain; [discriminate|discriminate|assumption]|constructor]); [reflexivity| |exact Se].
      apply C_exact. split; [reflexivity|exact U].
  - do 3 (apply exactly_choice2; [no_match|]).
    destruct (opt_number w3 v y w4 (lit "}" ++ r) B3 V B4 (brace_solid r)) as (z2 & S2 & Z2 & Y2); [no_match|by_class|].
    destruct (opt_number w1 u x w2 (lit ".." ++ w3 ++ v ++ w4 ++ lit "}" ++ r) B1 U B2 (range_solid _)) as (z1 & S1 & Z1 & Y1); [no_match|by_class|].
    eapply exactly_weaken.
    + apply exactly_loud; [reflexivity|]. cbn [inside_of loud_kind loud_body]. rewrite <- !app_assoc.
      eapply exactly_seq; [apply (symbol_passes R_opening_brace (lit "{")); [reflexivity|reflexivity|exact Z1]|].
      eapply exactly_seq; [|apply (symbol _ R_closing_brace (lit "}")); reflexivity].
      apply yields_choice1. eapply yields_seq; [exact Y1|]. eapply yields_seq; [apply (symbol_passes R_range_operator (lit "..")); [reflexivity|reflexivity|exact Z2]|exact Y2].
    + intros ps (i & j & l & -> & (o & l' & -> & O & (q & c & -> & Q & C))). destruct O as (? & ? & ? & -> & O). destruct C as (? & ? & ? & -> & C).
      destruct Q as (px & q' & -> & PX & (rg & py & -> & RG & PY)). destruct RG as (? & ? & ? & -> & RG).
      apply post_bounded; try (constructor; [apply tame_plain; [discriminate|discriminate|assumption]|constructor]); [|reflexivity| |exact Se].
      * apply Forall_app. split; [apply PX|]. apply (Forall_app _ [_]). split; [constructor; [apply tame_plain; [discriminate|discriminate|assumption]|constructor]|apply PY].
      * apply C_bounds. apply bounds_opt; [exact PX|exact PY|reflexivity].
Qed.
Lemma overridable : forall o k, trivia_op o k -> exists r, sequence_op r k /\ simple_postfix r (fun n => PSeparated n k) /\ In r [R_tilde_operator; R_caret_operator] /\
  forall v v', passes NonAtomic v v' -> yields NonAtomic #S_overridable_operator (o ++ v) v' (token r o calm).
Proof.
  intros o k [|]; [exists R_tilde_operator|exists R_caret_operator]; (split; [constructor|]); (split; [constructor|]).
  - split; [left; reflexivity|]. intros v v' P. apply yields_silent; [reflexivity|]. apply yields_choice1. apply (symbol_passes R_tilde_operator (lit "~")); [reflexivity|reflexivity|exact P].
  - split; [right; left; reflexivity|]. intros v v' P. apply yields_silent; [reflexivity|]. apply yields_choice2; [no_match|]. apply (symbol_passes R_caret_operator (lit "^")); [reflexivity|reflexivity|exact P].
Qed.
Lemma postfix_first : forall t p t', w_postfix t p t' -> in_class [(63, 63); (42, 42); (43, 43); (123, 123)]%N p /\ p <> [].
Proof. intros t p t' [ | | | | ]; (split; [by_class|discriminate]). Qed.
Definition post_is (t t' : tree) (q : list ppair) : Prop :=
  calm q /\ forall path l n, den_postfixed path l n -> tree_of n = t -> exists n', den_postfixed path (l ++ q) n' /\ tree_of n' = t'.
Lemma post_is_nil : forall t ps, nothing ps -> post_is t t ps.
Proof. intros t ps ->. split; [constructor|]. intros path l n D E. exists n. rewrite app_nil_r. auto. Qed.
Lemma post_is_one : forall t t' ps, post_one t t' ps -> post_is t t' ps.
Proof.
  intros t t' ps (p & -> & T & H). split; [constructor; [exact T|constructor]|]. intros path l n D E. destruct (H n E) as (e & X & Y).
  eexists. split; [eapply Den_post; eassumption|exact Y].
Qed.
Lemma post_is_app : forall t t1 t2 ps, both (post_is t t1) (post_is t1 t2) ps -> post_is t t2 ps.
Proof.
  intros t t1 t2 ps (p & q & -> & (C1 & H1) & (C2 & H2)). split; [apply Forall_app; auto|]. intros path l n D E.
  destruct (H1 path l n D E) as (n1 & D1 & E1). destruct (H2 path _ n1 D1 E1) as (n2 & D2 & E2). exists n2. rewrite app_assoc. auto.
Qed.
Lemma post_is_sep : forall r o k t ps, simple_postfix r (fun n => PSeparated n k) -> token r o calm ps -> post_is t (T_sep t k) ps.
Proof. intros r o k t ps S H. apply post_is_one. eapply post_simple; [exact S| |exact H]. intros n <-. reflexivity. Qed.
Local Notation postfix := #S_postfix_operator.
Lemma postfix_plain : forall t p t', w_postfix t p t' -> forall r v, passes NonAtomic r v -> yields NonAtomic postfix (p ++ r) v (post_is t t').
Proof.
  intros t p t' H r v P. destruct (postfix_first t p t' H) as (C & N). apply (class_app _ _ r N) in C.
  eapply yields_weaken; [|apply post_is_one]. apply yields_silent; [reflexivity|]. cbn [silent_body]. eapply yields_weaken; [|apply nothing_both].
  eapply yields_seq; [apply yields_opt_none; [no_match|apply passes_solid, solid_class; eapply class_sub; [|exact C]; reflexivity]|].
  eapply exactly_yields; [apply (postfix_written t p t' H)|exact P].
Qed.
Lemma postfix_sep : forall t o k w p t', trivia_op o k -> blank w -> w_postfix (T_sep t k) p t' -> forall r v, passes NonAtomic r v ->
  yields NonAtomic postfix (o ++ w ++ p ++ r) v (post_is t t').
Proof.
  intros t o k w p t' O B H r v P. destruct (postfix_first _ p t' H) as (C & N). apply (class_app _ _ r N) in C.
  destruct (overridable o k O) as (rl & _ & Sp & _ & Y).
  eapply yields_weaken; [|apply (post_is_app t (T_sep t k) t')]. apply yields_silent; [reflexivity|]. cbn [silent_body].
  eapply yields_seq.
  - apply yields_opt. eapply yields_weaken; [apply Y; apply passes_blank; [exact B|]|intro ps; apply post_is_sep, Sp]. apply solid_class. eapply class_sub; [|exact C]. reflexivity.
  - eapply yields_weaken; [|apply post_is_one]. eapply exactly_yields; [apply (postfix_written _ p t' H)|exact P].
Qed.
(** After an operand: what follows is no postfix operator and no arguments. *)
Definition after_term : list range := [(0, 39); (41, 57); (59, 90); (92, 1114111)]%N.
Definition term_follow (r v : text) : Prop := passes NonAtomic r v /\ solid v /\ in_class follow r /\ in_class after_term v /\ fails NonAtomic postfix v.
Lemma op_head : forall o k, trivia_op o k -> o <> [] /\ in_class [(126, 126); (94, 94)]%N o.
Proof. intros o k [|]; (split; [discriminate|by_class]). Qed.
Lemma postfixes_written : forall t u t', w_postfixes t u t' -> forall r v, term_follow r v ->
  exists v1, passes NonAtomic (u ++ r) v1 /\ in_class follow (u ++ r) /\ in_class after_term v1 /\ solid v1 /\ steps NonAtomic postfix v1 v (post_is t t').
Proof.
  intros t u t' H. induction H as [t|t w p t1 v2 t2 B P H IH|t w o k w' p t1 v2 t2 B O B' P H IH]; intros r v F.
  - exists v. destruct F as (F1 & F0 & F2 & F3 & F4). split; [exact F1|]. split; [exact F2|]. split; [exact F3|]. split; [exact F0|]. eapply steps_weaken; [apply steps_nil|apply post_is_nil].
  - destruct (IH r v F) as (v1 & P1 & C1 & A1 & S1 & St). exists (p ++ v2 ++ r). rewrite <- !app_assoc. destruct (postfix_first t p t1 P) as (C & N).
    apply (class_app _ _ (v2 ++ r) N) in C. assert (solid (p ++ v2 ++ r)) as So by (apply solid_class; eapply class_sub; [|exact C]; reflexivity).
    split; [apply passes_blank; assumption|]. split; [apply blank_follow; [exact B|]; eapply class_sub; [|exact C]; reflexivity|].
    split; [eapply class_sub; [|exact C]; reflexivity|]. split; [exact So|].
    eapply steps_weaken; [|apply post_is_app]. eapply steps_app; [apply steps_one; apply postfix_plain; [exact P|exact P1]|exact St].
  - destruct (IH r v F) as (v1 & P1 & C1 & A1 & S1 & St). exists (o ++ w' ++ p ++ v2 ++ r). rewrite <- !app_assoc. destruct (op_head o k O) as (N & C).
    apply (class_app _ _ (w' ++ p ++ v2 ++ r) N) in C. assert (solid (o ++ w' ++ p ++ v2 ++ r)) as So by (apply solid_class; eapply class_sub; [|exact C]; reflexivity).
    split; [apply passes_blank; assumption|]. split; [apply blank_follow; [exact B|]; eapply class_sub; [|exact C]; reflexivity|].
    split; [eapply class_sub; [|exact C]; reflexivity|]. split; [exact So|].
    eapply steps_weaken; [|apply post_is_app]. eapply steps_app; [apply steps_one; eapply postfix_sep; [exact O|exact B'|exact P|exact P1]|exact St].
Qed.

(** * Names. *)
Definition names_are (names : list text) (ps : list ppair) : Prop := calm ps /\ segments ps names.
Local Notation more_names := ($R_ancestry_operator ;; $R_identifier).
Lemma name_head : forall u, identifier_text u -> u <> [] /\ in_class [(65, 90); (95, 95); (97, 122)]%N u.
Proof.
  intros u (c & r & -> & C & _). split; [discriminate|]. intros d r' E. injection E as <- <-. split; [lia|]. unfold in_ranges. cbn [existsb fst snd].
  rewrite !orb_true_iff, !andb_true_iff, !N.leb_le. lia.
Qed.
Lemma names_head : forall u names, w_names u names -> u <> [] /\ in_class [(65, 90); (95, 95); (97, 122)]%N u.
Proof.
  intros u names [u' I|u' w w' v l I _ _ _]; [apply name_head, I|]. destruct (name_head u' I) as (N & C). split; [destruct u'; [contradiction|discriminate]|].
  apply class_app; assumption.
Qed.
Lemma names_written : forall u names, w_names u names -> forall r v, passes NonAtomic r v -> in_class follow r ->
  exists v1 P1 P2, yields NonAtomic $R_identifier (u ++ r) v1 P1 /\ (solid v -> solid v1) /\ steps NonAtomic more_names v1 v P2 /\
    forall p q, P1 p -> P2 q -> names_are names (p ++ q).
Proof.
  intros u names H. induction H as [u I|u w w' u2 l I B B' H IH]; intros r v P F.
  - exists v. eexists _, nothing. split; [eapply exactly_yields; [apply identifier_token; assumption|exact P]|]. split; [auto|]. split; [apply steps_nil|].
    intros p q H1 ->. rewrite app_nil_r. split; [eapply calm_token; [| |exact H1]; discriminate|]. destruct H1 as (i & j & ll & -> & _). apply (Seg_last (mkPPair R_identifier u i j ll)). reflexivity.
  - destruct (IH r v P F) as (v2 & P1 & P2 & Y & So & St & D). rewrite <- !app_assoc. destruct (names_head _ _ H) as (N & C).
    exists (lit "::" ++ w' ++ u2 ++ r). eexists _, _. split; [|split; [intros _; by_solid|split]].
    + eapply exactly_yields; [apply identifier_token; [exact I|]|apply passes_blank; [exact B|by_solid]]. apply blank_follow; [exact B|by_class].
    + eapply steps_app; [|exact St]. apply steps_one. eapply yields_seq; [|exact Y].
      apply (symbol_then R_ancestry_operator (lit "::")); [reflexivity|reflexivity|exact B'|]. apply solid_class, class_app; [exact N|].
      eapply class_sub; [|exact C]. reflexivity.
    + intros p q H1 (q1 & q2 & -> & (a & b & -> & H2 & H3) & H4). destruct (D b q2 H3 H4) as (Ca & Sg). destruct H1 as (i & j & ll & -> & C1). destruct H2 as (i' & j' & l' & -> & C2).
      split.
      * cbn [app]. constructor; [apply tame_plain; [discriminate|discriminate|exact C1]|]. constructor; [apply tame_plain; [discriminate|discriminate|exact C2]|]. exact Ca.
      * cbn [app]. apply (Seg_more (mkPPair R_identifier u i j ll)); [reflexivity|reflexivity|exact Sg].
Qed.

(** * Terminals. *)
Definition den_is (D : text -> list ppair -> parse_node -> Prop) (t : tree) (ps : list ppair) : Prop :=
  calm ps /\ forall path, exists n, D path ps n /\ tree_of n = t.
Lemma terminal_head : forall u t, w_terminal u t -> u <> [] /\ in_class [(34, 34); (39, 39); (105, 105); (114, 114)]%N u.
Proof. intros u t [s r _|s _|s r _|u' w w' v a b (s & -> & _) _ _ _]; (split; [discriminate|by_class]). Qed.
Lemma den_literal : forall e p, calm [p] -> den_terminal p e -> den_is den_core (tree_expr e) [p].
Proof. intros e p C D. split; [exact C|]. intro path. eexists. split; [apply Den_terminal, D|reflexivity]. Qed.
Lemma terminal_written : forall u t, w_terminal u t -> forall r v, passes NonAtomic r v -> yields NonAtomic #S_terminal (u ++ r) v (den_is den_core t).
Proof.
  intros u t H r v P. apply yields_silent; [reflexivity|]. cbn [silent_body]. destruct H as [s d H|s N|s d H|u w w' u2 a b (s & -> & M & Q) B B' (s2 & -> & M2 & Q2)].
  - apply yields_choice1. eapply yields_weaken.
    + eapply exactly_yields; [|exact P]. cbn [app]. rewrite <- app_assoc. apply string_token. eapply documented_inner, H.
    + intros ps X. pose proof X as Y. destruct Y as (i & j & l & -> & C). apply (den_literal (PStr d)); [eapply calm_token; [| |exact X]; discriminate|constructor; exact H].
  - apply yields_choice2; [no_match|]. apply yields_choice1. eapply yields_weaken.
    + eapply exactly_yields; [|exact P]. cbn [app]. rewrite <- app_assoc. apply raw_token, N.
    + intros ps (i & j & l & -> & (q1 & c & q2 & -> & Q1 & Q2 & Q3 & C1 & <- & C3 & E1 & E2)). apply (den_literal (PStr (pp_str c))).
      * assert (forall q, pp_inner q = [] -> pp_rule q <> R_character -> pp_rule q <> R_raw_string -> tame q) as T.
        { intros [rq uq iq jq lq] E X Y. cbn [pp_inner] in E. subst lq. apply tame_plain; [exact X|exact Y|constructor]. }
        assert (tame q1) by (apply T; congruence). assert (tame c) by (apply T; congruence). assert (tame q2) by (apply T; congruence).
        constructor; [|constructor]. constructor; cbn [pp_rule pp_str pp_inner]; [discriminate| |auto].
        intros _. repeat constructor; congruence.
      * apply (Den_raw _ i j []); [constructor|exact Q1|exact C1].
  - do 2 (apply yields_choice2; [no_match|]). apply yields_choice1. eapply yields_weaken.
    + eapply exactly_yields; [|exact P]. cbn [app]. rewrite <- app_assoc. apply insensitive_token. eapply documented_inner, H.
    + intros ps X. pose proof X as Y. destruct Y as (i & j & l & -> & C). apply (den_literal (PInsens d)); [eapply calm_token; [| |exact X]; discriminate|constructor; exact H].
  - do 4 (apply yields_choice2; [no_match|]). eapply yields_weaken.
    + eapply exactly_yields; [|exact P]. apply exactly_loud; [reflexivity|]. cbn [inside_of loud_kind loud_body].
      cbn [app]. rewrite <- ?app_assoc. cbn [app]. rewrite <- ?app_assoc. cbn [app].
      eapply exactly_seq; [eapply exactly_yields; [apply character_token; eapply char_written, M|apply passes_blank; [exact B|by_solid]]|].
      eapply exactly_seq; [apply (symbol_then R_range_operator (lit "..")); [reflexivity|reflexivity|exact B'|by_solid]|].
      cbn [app]. rewrite <- ?app_assoc. cbn [app]. apply character_token. eapply char_written, M2.
    + intros ps (i & j & l & -> & (p1 & l' & -> & H1 & (o & p2 & -> & H2 & H3))). destruct H1 as (? & ? & ? & -> & C1). destruct H2 as (? & ? & ? & -> & C2). destruct H3 as (? & ? & ? & -> & C3).
      assert (forall s i j l, s <> [34%N] -> calm l -> tame (mkPPair R_character (39%N :: s ++ [39%N]) i j l)) as T.
      { intros s0 i0 j0 l0 X C. constructor; cbn [pp_rule pp_str pp_inner]; [|discriminate|exact C]. intros _ E. apply X. injection E as E. apply (app_inj_tail s0 [34%N]) in E as (E & _). exact E. }
      apply (den_literal (PRange a b)).
      * constructor; [|constructor]. apply tame_plain; [discriminate|discriminate|]. cbn [app]. constructor; [apply T; assumption|].
        constructor; [apply tame_plain; [discriminate|discriminate|exact C2]|]. constructor; [apply T; assumption|constructor].
      * cbn [app]. apply Den_range; constructor; assumption.
Qed.

(** * Names are not taken for literals. *)
Lemma raw_not : forall a c r, in_class [(0, 33); (36, 1114111)]%N r -> (c <= 1114111)%N -> fails a $R_raw_string (c :: r).
Proof.
  intros a c r C L. apply fails_rule. cbn [inside_of loud_kind body_of loud_body]. destruct (N.eq_dec c 114) as [->|D]; [|apply fails_seq1, (fails_first _ 114%N []); congruence].
  intros s E. replace (inside_of a (Loud R_raw_string)) with CompoundAtomic by reflexivity.
  destruct (exactly_str CompoundAtomic (lit "r") r s E) as (s1 & p1 & A1 & S1 & E1 & ->).
  assert (fails CompoundAtomic $R_pound r) as F by no_match. destruct (ans_more_none CompoundAtomic _ _ eq_refl (F s1 E1)) as (A2 & _). apply ans_push in A2.
  assert (fails CompoundAtomic $R_quote r) as G by no_match.
  refine (ans_seq _ _ _ _ _ _ _ None A1 (skipped_quiet CompoundAtomic s1 eq_refl) _).
  refine (ans_seq _ _ _ _ _ _ _ None A2 (skipped_quiet CompoundAtomic _ eq_refl) _).
  assert (forall x y s, ans CompoundAtomic x s None -> ans CompoundAtomic (x ;; y) s None) as Q.
  { intros x y s0 (k & H). exists (S k). cbn [qmatch]. rewrite H. reflexivity. }
  apply Q, G. exact E1.
Qed.
Lemma name_no_literal : forall u r, identifier_text u -> in_class follow r ->
  fails NonAtomic $R_string (u ++ r) /\ fails NonAtomic $R_raw_string (u ++ r) /\ fails NonAtomic $R_insensitive_string (u ++ r).
Proof.
  intros u r I F. assert (in_class [(65, 90); (95, 95); (97, 122)]%N (u ++ r)) as H by (apply class_app; apply name_head, I).
  destruct I as (c & t & -> & C & T). assert (in_class [(0, 33); (36, 1114111)]%N (t ++ r)) as G.
  { destruct t as [|d t]; [eapply class_sub; [|exact F]; reflexivity|]. cbn [app]. inversion T as [|? ? D _]; subst. unfold name_char in D.
    intros x y E. injection E as <- <-. split; [lia|]. unfold in_ranges. cbn [existsb fst snd]. rewrite !orb_true_iff, !andb_true_iff, !N.leb_le. lia. }
  split; [no_match|]. split; [cbn [app]; apply raw_not; [exact G|lia]|].
  cbn [app]. apply fails_rule. cbn [inside_of loud_kind body_of loud_body].
  destruct (N.eq_dec c 105) as [->|D]; [|apply fails_seq1, (fails_first _ 105%N []); congruence].
  eapply fails_seq2; [apply plain_yields; [reflexivity|apply (exactly_str _ (lit "i"))]|]. no_match.
Qed.
Lemma names_no_literal : forall u names r, w_names u names -> in_class follow r ->
  fails NonAtomic $R_string (u ++ r) /\ fails NonAtomic $R_raw_string (u ++ r) /\ fails NonAtomic $R_insensitive_string (u ++ r).
Proof.
  intros u names r [u' I|u' w w' v l I B B' _] F; [apply name_no_literal; assumption|]. rewrite <- !app_assoc. apply name_no_literal; [exact I|].
  apply blank_follow; [exact B|by_class].
Qed.

(** * Operators. *)
Definition infix_is (k : trivia) (ps : list ppair) : Prop := exists p, ps = [p] /\ tame p /\ sequence_op (pp_rule p) k.
Definition choice_is (ps : list ppair) : Prop := exists p, ps = [p] /\ tame p /\ pp_rule p = R_choice_operator.
Lemma infix_token : forall r u k ps, sequence_op r k -> token r u calm ps -> infix_is k ps.
Proof. intros r u k ps S (i & j & l & -> & C). eexists. split; [reflexivity|]. split; [apply tame_plain; [..|exact C]; intros ->; inversion S|exact S]. Qed.
Lemma infix_seq : forall o k w z, seq_op o k -> blank w -> solid z -> yields NonAtomic #S_infix_operator (o ++ w ++ z) z (infix_is k).
Proof.
  intros o k w z [| |] B S; (apply yields_silent; [reflexivity|]); cbn [silent_body].
  - apply yields_choice1. eapply yields_weaken; [apply (symbol_then R_sequence_operator (lit "-")); [reflexivity|reflexivity|exact B|exact S]|].
    intro ps. apply infix_token. constructor.
  - apply yields_choice2; [no_match|]. apply yields_choice1. eapply yields_weaken; [apply (symbol_then R_tilde_operator (lit "~")); [reflexivity|reflexivity|exact B|exact S]|].
    intro ps. apply infix_token. constructor.
  - do 2 (apply yields_choice2; [no_match|]). apply yields_choice1. eapply yields_weaken; [apply (symbol_then R_caret_operator (lit "^")); [reflexivity|reflexivity|exact B|exact S]|].
    intro ps. apply infix_token. constructor.
Qed.
Lemma choice_written : forall o w z, choice_op o -> blank w -> solid z -> yields NonAtomic $R_choice_operator (o ++ w ++ z) z choice_is.
Proof.
  assert (forall P : list ppair -> Prop, (forall l, P l -> calm l) -> forall ps, one_pair R_choice_operator P ps -> choice_is ps) as W.
  { intros P C ps (u & i & j & l & -> & X). eexists. split; [reflexivity|]. split; [apply tame_plain; [discriminate|discriminate|apply C, X]|reflexivity]. }
  intros o w z [|o' k w' O B'] B S.
  - eapply yields_weaken; [apply yields_loud; [reflexivity|reflexivity|]|].
    + cbn [loud_body]. eapply yields_seq; [apply yields_opt_none; [no_match|apply passes_solid; by_solid]|].
      eapply exactly_yields; [apply (exactly_str _ (lit "|"))|apply passes_blank; assumption].
    + apply W. calm_parts.
  - destruct (overridable o' k O) as (r & _ & _ & R & Y). rewrite <- !app_assoc. eapply yields_weaken; [apply yields_loud; [reflexivity|reflexivity|]|].
    + cbn [loud_body]. eapply yields_seq; [apply yields_opt, Y; apply passes_blank; [exact B'|by_solid]|].
      eapply exactly_yields; [apply (exactly_str _ (lit "|"))|apply passes_blank; assumption].
    + apply W. apply calm_both; [|calm_parts]. apply calm_token; intros ->; destruct R as [R|[R|[]]]; discriminate.
Qed.
Lemma infix_bar : forall w z, blank w -> solid z -> yields NonAtomic #S_infix_operator (lit "|" ++ w ++ z) z choice_is.
Proof.
  intros w z B S. apply yields_silent; [reflexivity|]. cbn [silent_body]. do 3 (apply yields_choice2; [no_match|]). apply choice_written; [constructor|exact B|exact S].
Qed.
(** The first characters of operands and expressions. *)
Definition term_first : list range := [(33, 33); (34, 34); (38, 38); (39, 39); (40, 40); (65, 90); (95, 95); (97, 122)]%N.
Definition expr_first : list range := [(124, 124); (126, 126); (94, 94)]%N ++ term_first.
Lemma after_op : forall o k w z, trivia_op o k -> blank w -> in_class ([(124, 124); (61, 61)]%N ++ term_first) z ->
  fails NonAtomic postfix (o ++ w ++ z).
Proof.
  intros o k w z O B C. destruct (overridable o k O) as (r & _ & _ & _ & Y). apply fails_rule. cbn [inside_of body_of silent_body].
  eapply fails_seq2; [apply yields_opt, Y; apply passes_blank; [exact B|]|].
  - apply solid_class. eapply class_sub; [|exact C]. reflexivity.
  - no_match.
Qed.
Lemma no_choice : forall o k w z, trivia_op o k -> blank w -> in_class ([(61, 61)]%N ++ term_first) z -> fails NonAtomic $R_choice_operator (o ++ w ++ z).
Proof.
  intros o k w z O B C. destruct (overridable o k O) as (r & _ & _ & _ & Y). apply fails_rule. cbn [inside_of body_of loud_body loud_kind].
  eapply fails_seq2; [apply yields_opt, Y; apply passes_blank; [exact B|]|].
  - apply solid_class. eapply class_sub; [|exact C]. reflexivity.
  - no_match.
Qed.
Lemma after_seq_op : forall o k w z, seq_op o k -> blank w -> in_class term_first z ->
  fails NonAtomic postfix (o ++ w ++ z) /\ fails NonAtomic $R_choice_operator (o ++ w ++ z).
Proof.
  intros o k w z O B C. inversion O; subst.
  - split; no_match.
  - split; [eapply after_op; [constructor|exact B|]|eapply no_choice; [constructor|exact B|]]; (eapply class_sub; [|exact C]); reflexivity.
  - split; [eapply after_op; [constructor|exact B|]|eapply no_choice; [constructor|exact B|]]; (eapply class_sub; [|exact C]); reflexivity.
Qed.
Lemma after_choice_op : forall o w z, choice_op o -> fails NonAtomic postfix (o ++ w ++ z).
Proof.
  intros o w z [|o' k w' O B]; [no_match|]. rewrite <- !app_assoc. eapply after_op; [exact O|exact B|by_class].
Qed.
Lemma op_class : forall o, choice_op o -> o <> [] /\ in_class [(124, 124); (126, 126); (94, 94)]%N o.
Proof. intros o [|o' k w [|] B]; (split; [discriminate|by_class]). Qed.
Lemma seq_class : forall o k, seq_op o k -> o <> [] /\ in_class [(45, 45); (126, 126); (94, 94)]%N o.
Proof. intros o k [| |]; (split; [discriminate|by_class]). Qed.

(** First characters. *)
Lemma core_head : forall u t, w_core u t -> u <> [] /\ in_class [(34, 34); (39, 39); (40, 40); (65, 90); (95, 95); (97, 122)]%N u.
Proof.
  assert (forall u names z, w_names u names -> u ++ z <> [] /\ in_class [(34, 34); (39, 39); (40, 40); (65, 90); (95, 95); (97, 122)]%N (u ++ z)) as H.
  { intros u names z W. destruct (names_head u names W) as (N & C). split; [destruct u; [contradiction|discriminate]|]. apply class_app; [exact N|].
    eapply class_sub; [|exact C]. reflexivity. }
  intros u t [u' t' T|w u' w' t' _ _ _|u' names W|u' names w w1 v l w2 W _ _ _ _|u' names w w1 a x w2 w3 b y w4 W _ _ _ _ _ _ _ _ _].
  - destruct (terminal_head u' t' T) as (N & C). split; [exact N|]. eapply class_sub; [|exact C]. reflexivity.
  - split; [discriminate|by_class].
  - rewrite <- (app_nil_r u'). eapply H, W.
  - eapply H, W.
  - eapply H, W.
Qed.
Lemma term_head : forall u t, w_term u t -> u <> [] /\ in_class term_first u.
Proof.
  intros u t [w u' t' _ _|w u' t' _ _|u' t1 v t2 W _].
  - split; [discriminate|by_class].
  - split; [discriminate|by_class].
  - destruct (core_head u' t1 W) as (N & C). split; [destruct u'; [contradiction|discriminate]|]. apply class_app; [exact N|]. eapply class_sub; [|exact C]. reflexivity.
Qed.
Lemma sequence_head : forall u t, w_sequence u t -> u <> [] /\ in_class term_first u.
Proof.
  intros u t [u' t' W|u' w o k w' v a b W _ _ _ _]; [eapply term_head, W|]. destruct (term_head u' a W) as (N & C). split; [destruct u'; [contradiction|discriminate]|].
  apply class_app; assumption.
Qed.
Lemma choices_head : forall u t, w_choices u t -> u <> [] /\ in_class term_first u.
Proof.
  intros u t [u' t' W|u' w w' v a b W _ _ _]; [eapply sequence_head, W|]. destruct (sequence_head u' a W) as (N & C). split; [destruct u'; [contradiction|discriminate]|].
  apply class_app; assumption.
Qed.
Lemma expression_head : forall u t, w_expression u t -> u <> [] /\ in_class expr_first u.
Proof.
  intros u t [u' t' W|u' w o w' v a b W _ _ _ _|o1 w1 u' w o w' v a b O _ _ _ _ _ _].
  - destruct (choices_head u' t' W) as (N & C). split; [exact N|]. eapply class_sub; [|exact C]. reflexivity.
  - destruct (term_head u' a W) as (N & C). split; [destruct u'; [contradiction|discriminate]|]. apply class_app; [exact N|]. eapply class_sub; [|exact C]. reflexivity.
  - destruct (op_class o1 O) as (N & C). split; [destruct o1; [contradiction|discriminate]|]. apply class_app; [exact N|]. eapply class_sub; [|exact C]. reflexivity.
Qed.
Lemma solid_app : forall l u r, u <> [] /\ in_class l u -> subset l not_blank = true -> solid (u ++ r).
Proof. intros l u r (N & C) S. apply solid_class, class_app; [exact N|]. eapply class_sub; eassumption. Qed.
