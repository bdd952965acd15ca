(** Theorems about reading grammar files (meta/src/parser.rs). *)
From Coq Require Import String List NArith ZArith Arith Bool Lia.
From Verif Require Import Model_Text Model_Unescape Model_Meta Model_Grammar
  Spec_Unescape Spec_Message Spec_Grammar Proof_Literal Proof_Pratt Proof_Grammar Proof_Reading.
Import ListNotations.
Open Scope list_scope.

(** Pairs for the examples: each with its rule, text and place. *)
Definition leaf (r : grule) (s : text) (a : nat) : ppair := mkPPair r s a (a + blen s) [].
Definition character (s : text) (a : nat) : ppair := leaf R_character (39%N :: s ++ [39%N]) a.

Lemma hexadecimal : forall c, (48 <= c <= 57 \/ 97 <= c <= 102 \/ 65 <= c <= 70)%N -> is_hex c.
Proof. intros c [H|[H|H]]; [exists (c - 48)%N|exists (c - 87)%N|exists (c - 55)%N]; unfold hex_digit; lia. Qed.

(** C47: a character range is read as a range exactly when both literals denote a character and
    neither is the bare quote character; it is the range from the one to the other. *)
Theorem C47_exact : forall span s a b s1 a1 b1 l1 o s2 a2 b2 l2 n, char_text s1 -> char_text s2 ->
  let p := mkPPair R_range s a b [mkPPair R_character (39%N :: s1 ++ [39%N]) a1 b1 l1; o;
                                  mkPPair R_character (39%N :: s2 ++ [39%N]) a2 b2 l2] in
  (parse_char_range p span = Ret (inl n) <->
   s1 <> [34%N] /\ s2 <> [34%N] /\
   exists c1 c2, char_meaning s1 c1 /\ char_meaning s2 c2 /\ n = mkNode (PRange c1 c2) (at_pair (ms_path span) p)).
Proof.
  intros span s a b s1 a1 b1 l1 o s2 a2 b2 l2 n T1 T2 p. unfold parse_char_range. cbn [p pp_inner next obind].
  destruct (char_content_exact s1 a1 b1 l1 T1) as [(Q1 & E1)|[(Q1 & c1 & M1 & E1)|(Q1 & M1 & E1)]]; rewrite E1; cbn [pbind obind next];
  destruct (char_content_exact s2 a2 b2 l2 T2) as [(Q2 & E2)|[(Q2 & c2 & M2 & E2)|(Q2 & M2 & E2)]]; try rewrite E2; cbn [pbind obind hd_error or_panic];
  split; try discriminate; intros H.
  all: try (destruct H as (N1 & N2 & d1 & d2 & D1 & D2 & H); exfalso; first [exact (N1 Q1)|exact (N2 Q2)|exact (M1 _ D1)|exact (M2 _ D2)]).
  - injection H as <-. split; [exact Q1|]. split; [exact Q2|]. exists c1, c2. auto.
  - destruct H as (_ & _ & d1 & d2 & D1 & D2 & ->). rewrite (char_meaning_det _ _ _ M1 D1), (char_meaning_det _ _ _ M2 D2). reflexivity.
Qed.
Print Assumptions C47_exact.
Example C47_exact_ex :
  char_text (lit "a") /\ char_text (92%N :: lit "u{7A}") /\
  parse_char_range (mkPPair R_range (lit "'a'..'\u{7A}'") 4 17
      [character (lit "a") 4; leaf R_range_operator (lit "..") 7; character (92%N :: lit "u{7A}") 9]) (mkMSpan (lit "f") 0 30) =
    Ret (inl (mkNode (PRange 97%N 122%N) (mkMSpan (lit "f") 4 17))).
Proof.
  split; [right; exists 97%N; split; [discriminate|reflexivity]|]. split; [|vm_compute; reflexivity].
  left. apply (ES_unicode [55; 65]%N); [cbn; lia|]. repeat apply Forall_cons; try apply Forall_nil; apply hexadecimal; lia.
Qed.

(** C47: otherwise the error is that of the first literal that denotes no character. *)
Theorem C47_error : forall span s a b s1 a1 b1 l1 o s2 a2 b2 l2 e, char_text s1 -> char_text s2 ->
  let p := mkPPair R_range s a b [mkPPair R_character (39%N :: s1 ++ [39%N]) a1 b1 l1; o;
                                  mkPPair R_character (39%N :: s2 ++ [39%N]) a2 b2 l2] in
  (parse_char_range p span = Ret (inr e) <->
   ((forall c, ~ char_meaning s1 c) /\ e = CustomError (lit "incorrect char literal") a1 b1) \/
   ((exists c, char_meaning s1 c) /\ (forall c, ~ char_meaning s2 c) /\ e = CustomError (lit "incorrect char literal") a2 b2)).
Proof.
  intros span s a b s1 a1 b1 l1 o s2 a2 b2 l2 e T1 T2 p. unfold parse_char_range. cbn [p pp_inner next obind].
  pose proof (quote_meaning_of s1) as QM1. pose proof (quote_meaning_of s2) as QM2.
  destruct (char_content_exact s1 a1 b1 l1 T1) as [(Q1 & E1)|[(Q1 & c1 & M1 & E1)|(Q1 & M1 & E1)]]; rewrite E1; cbn [pbind obind next];
  destruct (char_content_exact s2 a2 b2 l2 T2) as [(Q2 & E2)|[(Q2 & c2 & M2 & E2)|(Q2 & M2 & E2)]]; try rewrite E2; cbn [pbind obind hd_error or_panic].
  all: split; intros H; try discriminate.
  all: try (injection H as <-; first [left; split; [exact M1|reflexivity]
    |right; split; [first [exists c1; exact M1|exists 34%N; exact (QM1 Q1)]|split; [exact M2|reflexivity]]]).
  all: destruct H as [(N & ->)|((x & X) & N & ->)]; try reflexivity; exfalso;
    first [exact (M1 _ X)|exact (N _ M1)|exact (N _ M2)|exact (N _ (QM1 Q1))|exact (N _ (QM2 Q2))].
Qed.
Print Assumptions C47_error.
Example C47_error_ex :
  char_text (92%N :: lit "u{D800}") /\ (forall c, ~ char_meaning (92%N :: lit "u{D800}") c) /\
  parse_char_range (mkPPair R_range (lit "'\u{D800}'..'b'") 4 19
      [character (92%N :: lit "u{D800}") 4; leaf R_range_operator (lit "..") 14; character (lit "b") 16]) (mkMSpan (lit "f") 0 30) =
    Ret (inr (CustomError (lit "incorrect char literal") 4 14)).
Proof.
  assert (T : char_text (92%N :: lit "u{D800}")).
  { left. apply (ES_unicode [68; 56; 48; 48]%N); [cbn; lia|]. repeat apply Forall_cons; try apply Forall_nil; apply hexadecimal; lia. }
  split; [exact T|]. split; [|vm_compute; reflexivity]. intros c M.
  pose proof (unescape_char_meaning _ _ M ltac:(discriminate)) as E. vm_compute in E. discriminate.
Qed.

(** C47, as documented, is false: a bare quote character makes the reader panic, exactly if the other
    literal denotes a character. *)
Theorem C47_panic : forall span s a b s1 a1 b1 l1 o s2 a2 b2 l2, char_text s1 -> char_text s2 ->
  let p := mkPPair R_range s a b [mkPPair R_character (39%N :: s1 ++ [39%N]) a1 b1 l1; o;
                                  mkPPair R_character (39%N :: s2 ++ [39%N]) a2 b2 l2] in
  (parse_char_range p span = Panic <->
   (exists c, char_meaning s1 c) /\ (exists c, char_meaning s2 c) /\ (s1 = [34%N] \/ s2 = [34%N])).
Proof.
  intros span s a b s1 a1 b1 l1 o s2 a2 b2 l2 T1 T2 p. unfold parse_char_range. cbn [p pp_inner next obind].
  pose proof (quote_meaning_of s1) as QM1. pose proof (quote_meaning_of s2) as QM2.
  destruct (char_content_exact s1 a1 b1 l1 T1) as [(Q1 & E1)|[(Q1 & c1 & M1 & E1)|(Q1 & M1 & E1)]]; rewrite E1; cbn [pbind obind next];
  destruct (char_content_exact s2 a2 b2 l2 T2) as [(Q2 & E2)|[(Q2 & c2 & M2 & E2)|(Q2 & M2 & E2)]]; try rewrite E2; cbn [pbind obind hd_error or_panic].
  all: split; intros H; try discriminate; try reflexivity.
  all: try (split; [first [exists c1; exact M1|exists 34%N; exact (QM1 Q1)]|];
    split; [first [exists c2; exact M2|exists 34%N; exact (QM2 Q2)]|];
    first [left; exact Q1|right; exact Q2]).
  all: destruct H as ((x & X) & (y & Y) & Z); exfalso; first [exact (M1 _ X)|exact (M2 _ Y)|destruct Z as [Z|Z]; [exact (Q1 Z)|exact (Q2 Z)]].
Qed.
Print Assumptions C47_panic.
Example C47_panic_ex : char_text [34%N] /\ char_meaning [34%N] 34%N /\
  parse_char_range (mkPPair R_range [] 4 12 [character [34%N] 4; leaf R_range_operator (lit "..") 7; character (lit "z") 9])
    (mkMSpan (lit "f") 0 30) = Panic.
Proof. split; [right; exists 34%N; split; [discriminate|reflexivity]|]. split; [exact quote_meaning|vm_compute; reflexivity]. Qed.
Theorem C47_every_literal_refuted : exists s1 s2 c1 c2 p,
  char_meaning s1 c1 /\ char_meaning s2 c2 /\ p = mkPPair R_range (lit "'""'..'z'") 0 8 [character s1 0; leaf R_range_operator (lit "..") 3; character s2 5] /\
  forall span, parse_char_range p span = Panic.
Proof.
  exists [34%N], [122%N], 34%N, 122%N. eexists. split; [exact quote_meaning|]. split; [right; split; [discriminate|reflexivity]|].
  split; [reflexivity|]. intro span. vm_compute. reflexivity.
Qed.
Print Assumptions C47_every_literal_refuted.

(** An expression for the examples: [a ~ "x"* | !(b^c){2..3}], starting at 0. *)
Definition ident (s : string) (a : nat) : ppair := mkPPair R_path (lit s) a (a + blen (lit s)) [leaf R_identifier (lit s) a].
Definition term (s : string) (a : nat) (l : list ppair) : ppair := mkPPair R_term (lit s) a (a + blen (lit s)) l.
Definition sample_inner : ppair :=
  mkPPair R_expression (lit "b^c") 14 17 [term "b" 14 [ident "b" 14]; leaf R_caret_operator (lit "^") 15; term "c" 16 [ident "c" 16]].
Definition sample (low high : string) : ppair :=
  mkPPair R_expression (lit "a ~ ""x""* | !(b^c){2..3}") 0 24
    [term "a" 0 [ident "a" 0]; leaf R_tilde_operator (lit "~") 2;
     term """x""*" 4 [leaf R_string (lit """x""") 4; leaf R_repeat_operator (lit "*") 7];
     leaf R_choice_operator (lit "|") 10;
     term "!(b^c){2..3}" 12
       [leaf R_negative_predicate_operator (lit "!") 12; leaf R_opening_paren (lit "(") 13; sample_inner;
        leaf R_closing_paren (lit ")") 17;
        mkPPair R_bounded_repeat (lit "{2..3}") 18 24
          [leaf R_opening_brace (lit "{") 18; leaf R_number (lit low) 19; leaf R_range_operator (lit "..") 20;
           leaf R_number (lit high) 22; leaf R_closing_brace (lit "}") 23]]].
Lemma notation_one : forall d, (48 <= d <= 57)%N -> notation [d] (d - 48)%N.
Proof.
  intros d H. split; [constructor; [exact H|constructor]|]. split; [unfold value_of_digits, digit_value; cbn; lia|].
  split; [discriminate|]. intros r Q. injection Q as _ <-. reflexivity.
Qed.
Ltac tamed := repeat first [apply Forall_nil|apply Forall_cons|apply Tame; cbn [pp_rule pp_inner pp_str]; [discriminate || (intro; discriminate)|try discriminate; intros _|]].
Lemma syn_ident : forall s a, syn_core [ident s a].
Proof. intros s a. apply (Syn_path (lit s) a (a + blen (lit s)) [leaf R_identifier (lit s) a] [lit s] []); [apply Seg_last; reflexivity|constructor]. Qed.
Lemma syn_plain : forall s a core, syn_core core -> syn_term (term s a core).
Proof. intros s a core C. rewrite <- (app_nil_r core). apply (Syn_term (lit s) a _ [] core []); [constructor|exact C|constructor]. Qed.
Lemma sample_syntax : forall x y, (48 <= x <= 57)%N -> (48 <= y <= 57)%N -> forall low high, lit low = [x] -> lit high = [y] ->
  syn_expression (sample low high) /\ tame (sample low high).
Proof.
  intros x y X Y low high EL EH. split.
  - apply (Syn_expression _ _ _ []); [left; reflexivity|].
    apply Syn_more; [apply syn_plain, syn_ident|right; exists TriviaOptional; constructor|].
    apply Syn_more; [|left; reflexivity|].
    + apply (Syn_term _ _ _ [] [_] [_]); [constructor| |].
      * apply Syn_terminal. apply (Syn_string [120%N]). apply IS_plain; [discriminate|discriminate|constructor].
      * constructor; [|constructor]. eapply Syn_simple. constructor.
    + apply Syn_last. apply (Syn_term _ _ _ [_] [_; _; _] [_]); [constructor; [right; reflexivity|constructor]| |].
      * apply Syn_parens; [reflexivity| |reflexivity]. apply (Syn_expression _ _ _ []); [left; reflexivity|].
        apply Syn_more; [apply syn_plain, syn_ident|right; exists TriviaMandatory; constructor|]. apply Syn_last, syn_plain, syn_ident.
      * constructor; [|constructor].
        apply (Syn_bounded _ _ _ _ [leaf R_number (lit low) 19; leaf R_range_operator (lit "..") 20; leaf R_number (lit high) 22] _ (Some (x - 48)%N) (Some (y - 48)%N) 19 23);
          [reflexivity| | |lia|reflexivity].
        -- apply C_bounds, B_both; [|reflexivity|]; (split; [reflexivity|]); cbn [leaf pp_str]; [rewrite EL|rewrite EH]; apply notation_one; assumption.
        -- exists (leaf R_number (lit low) 19), (leaf R_number (lit high) 22), [leaf R_range_operator (lit "..") 20; leaf R_number (lit high) 22],
             [leaf R_number (lit low) 19; leaf R_range_operator (lit "..") 20].
           split; [reflexivity|]. split; [reflexivity|]. split; [reflexivity|]. cbn [leaf pp_end]. rewrite EH.
           cbn [blen map list_sum fold_right]. unfold len_utf8. replace (y <? 128)%N with true by lia. reflexivity.
  - tamed.
Qed.

(** C48: which expression is read, for every expression that the syntax allows: choices bind weaker
    than sequences, both group to the right; prefix operators bind weaker than postfix operators; the
    operands and operators are the written ones; the places are those of the text. *)
Theorem C48_exact : forall span p n, syn_expression p -> tame p ->
  (parse_node_of rule_operators span p = Ret (inl n) <-> den_expression (ms_path span) p n).
Proof. exact parse_node_iff. Qed.
Print Assumptions C48_exact.
Example C48_exact_ex :
  syn_expression (sample "2" "3") /\ tame (sample "2" "3") /\
  let at_ a b := mkMSpan (lit "f") a b in
  let name (s : string) a := mkNode (PPath [lit s] None) (at_ a (a + 1)) in
  parse_node_of rule_operators (at_ 0 24) (sample "2" "3") =
    Ret (inl (mkNode (PChoice
      (mkNode (PSeq (name "a"%string 0) (mkNode (PRep (mkNode (PStr (lit "x")) (at_ 4 7))) (at_ 4 8)) TriviaOptional) (at_ 0 8))
      (mkNode (PNegPred (mkNode (PRepRange
         (mkNode (PSeq (name "b"%string 14) (name "c"%string 16) TriviaMandatory) (at_ 14 17))
         (mkRange (Some 2%N) (Some 3%N))) (at_ 14 24))) (at_ 12 24))) (at_ 0 24))).
Proof. destruct (sample_syntax 50%N 51%N ltac:(lia) ltac:(lia) "2" "3" eq_refl eq_refl). split; [assumption|]. split; [assumption|]. vm_compute. reflexivity. Qed.

(** C48: an expression has at most one meaning. *)
Theorem C48_unique : forall path p n m, syn_expression p -> tame p ->
  den_expression path p n -> den_expression path p m -> n = m.
Proof.
  intros path p n m S T N M. pose proof (proj2 (parse_node_iff (mkMSpan path 0 0) p n S T) N) as A.
  pose proof (proj2 (parse_node_iff (mkMSpan path 0 0) p m S T) M) as B. congruence.
Qed.
Print Assumptions C48_unique.
Example C48_unique_ex : exists n, den_expression (lit "f") (sample "2" "3") n.
Proof.
  destruct (sample_syntax 50%N 51%N ltac:(lia) ltac:(lia) "2" "3" eq_refl eq_refl) as (S & T).
  destruct C48_exact_ex as (_ & _ & E). eexists. exact (proj1 (C48_exact _ _ _ S T) E).
Qed.

(** C48: if an expression has no meaning, the first fault in it is reported. *)
Theorem C48_error : forall span p e, syn_expression p -> tame p ->
  (parse_node_of rule_operators span p = Ret (inr e) <-> first_fault p e).
Proof. exact parse_node_fault. Qed.
Print Assumptions C48_error.
Example C48_error_ex :
  syn_expression (sample "3" "2") /\ tame (sample "3" "2") /\
  parse_node_of rule_operators (mkMSpan (lit "f") 0 24) (sample "3" "2") =
    Ret (inr (CustomError (lit "repetition range void (3 > 2)") 19 23)).
Proof. destruct (sample_syntax 51%N 50%N ltac:(lia) ltac:(lia) "3" "2" eq_refl eq_refl). split; [assumption|]. split; [assumption|]. vm_compute. reflexivity. Qed.

(** C48: reading always ends, without a panic. *)
Theorem C48_total : forall span p, syn_expression p -> tame p -> exists r, parse_node_of rule_operators span p = Ret r.
Proof. exact parse_node_total. Qed.
Print Assumptions C48_total.
Example C48_total_ex : syn_expression (sample "0" "0") /\ tame (sample "0" "0").
Proof. exact (sample_syntax 48%N 48%N ltac:(lia) ltac:(lia) "0" "0" eq_refl eq_refl). Qed.

(** C49: a bounded repetition is accepted exactly if its limits are sensible, and these are then its
    limits. *)
Theorem C49_exact : forall s a b o l c x y i j child n,
  pp_rule o = R_opening_brace -> counts l x y -> extent l i j -> i <= j -> pp_rule c = R_closing_brace ->
  let p := mkPPair R_bounded_repeat s a b (o :: l ++ [c]) in
  (parse_postfix p child = Ret (inl n) <->
   sensible x y /\ n = mkNode (PRepRange child (mkRange x y)) (between (ms_path (n_span child)) (from_of child) b)).
Proof.
  intros s a b o l c x y i j child n O C X L CL p. split.
  - intro E. destruct (postfix_good (ms_path (n_span child)) p child) as [(m & E' & (e & D & ->) & _)|(e & E' & _)];
      [eapply Syn_bounded; eassumption|reflexivity| |congruence].
    rewrite E in E'. injection E' as ->. inversion D as [p' f n' S|s' a' b' o' l' c' x' y' n' C' SE CL']; subst; [inversion S|].
    match goal with Q : _ ++ [_] = _ ++ [_] |- _ => apply app_inj_tail in Q; destruct Q as (-> & _) end.
    destruct (counts_unique _ _ _ _ _ C C') as (-> & ->). split; [exact SE|reflexivity].
  - intros (SE & ->). apply (postfix_read (ms_path (n_span child)) p child); [|reflexivity]. apply Den_bounded; assumption.
Qed.
Print Assumptions C49_exact.
Definition braces (l : list ppair) : ppair := mkPPair R_bounded_repeat [] 1 9 (leaf R_opening_brace (lit "{") 1 :: l ++ [leaf R_closing_brace (lit "}") 8]).
Definition child_x : parse_node := mkNode (PStr (lit "x")) (mkMSpan (lit "f") 0 1).
Example C49_exact_ex :
  counts [leaf R_number (lit "7") 2] (Some 7%N) (Some 7%N) /\ sensible (Some 7%N) (Some 7%N) /\
  parse_postfix (braces [leaf R_number (lit "7") 2]) child_x =
    Ret (inl (mkNode (PRepRange child_x (mkRange (Some 7%N) (Some 7%N))) (mkMSpan (lit "f") 0 9))) /\
  sensible None None /\
  parse_postfix (braces [leaf R_range_operator (lit "..") 2]) child_x =
    Ret (inl (mkNode (PRepRange child_x (mkRange None None)) (mkMSpan (lit "f") 0 9))).
Proof.
  split; [apply C_exact; split; [reflexivity|exact (notation_one 55%N ltac:(lia))]|].
  split; [repeat split; intros; repeat match goal with H : Some _ = Some _ |- _ => injection H as <- end; try lia; discriminate|].
  split; [vm_compute; reflexivity|]. split; [repeat split; discriminate|vm_compute; reflexivity].
Qed.

(** C49: otherwise the error says why: a number that cannot be represented, a maximum below the
    minimum, or the maximum zero. *)
Theorem C49_error : forall s a b o l c x y i j child e,
  pp_rule o = R_opening_brace -> counts l x y -> extent l i j -> i <= j -> pp_rule c = R_closing_brace ->
  let p := mkPPair R_bounded_repeat s a b (o :: l ++ [c]) in
  (parse_postfix p child = Ret (inr e) <-> first_fault p e).
Proof.
  intros s a b o l c x y i j child e O C X L CL p.
  destruct (postfix_good (ms_path (n_span child)) p child) as [(m & E & _ & CP)|(e' & E & F)];
    [eapply Syn_bounded; eassumption|reflexivity| |]; rewrite E; split; intro H.
  - discriminate.
  - exfalso. inversion CP as [|? ? Q _]; subst. exact (clean_no_fault _ _ H Q).
  - injection H as <-. destruct F as (l1 & q & l2 & Q & _ & F). destruct l1 as [|z l1]; [injection Q as <- _; exact F|destruct l1; discriminate].
  - destruct F as (l1 & q & l2 & Q & _ & F). destruct l1 as [|z l1]; [injection Q as <- _|destruct l1; discriminate].
    rewrite (first_fault_det _ _ H _ F). reflexivity.
Qed.
Print Assumptions C49_error.
Example C49_error_ex :
  parse_postfix (braces [leaf R_number (lit "0") 2]) child_x = Ret (inr (CustomError (lit "cannot repeat 0 times") 2 3)) /\
  parse_postfix (braces [leaf R_number (lit "4") 2; leaf R_range_operator (lit "..") 3; leaf R_number (lit "1") 5]) child_x =
    Ret (inr (CustomError (lit "repetition range void (4 > 1)") 2 6)) /\
  parse_postfix (mkPPair R_bounded_repeat [] 1 30 [leaf R_opening_brace (lit "{") 1; leaf R_number (lit "18446744073709551616") 2; leaf R_closing_brace (lit "}") 22]) child_x =
    Ret (inr (CustomError (lit "number cannot overflow 8 bytes") 2 22)).
Proof. repeat split; vm_compute; reflexivity. Qed.

(** C59: a raw string without number signs denotes exactly the text between the quotes. *)
Theorem C59_plain : forall span s a b q1 content q2,
  pp_rule q1 = R_quote -> pp_rule content = R_inner_raw_str -> pp_rule q2 = R_quote ->
  let p := mkPPair R_raw_string s a b [q1; content; q2] in
  parse_raw_string p span = Ret (inl (mkNode (PStr (pp_str content)) (at_pair (ms_path span) p))).
Proof. intros. reflexivity. Qed.
Print Assumptions C59_plain.
(** C59: with one number sign it denotes a quote character, with more a number sign. *)
Theorem C59_pounds : forall span s a b p1 pounds q1 content q2,
  Forall (fun p => pp_rule p = R_pound /\ pp_str p = lit "#") (p1 :: pounds) -> pp_rule q1 = R_quote -> pp_str q1 = [34%N] ->
  let p := mkPPair R_raw_string s a b ((p1 :: pounds) ++ [q1; content; q2]) in
  parse_raw_string p span =
    Ret (inl (mkNode (PStr (match pounds with [] => [34%N] | _ => lit "#" end)) (at_pair (ms_path span) p))).
Proof.
  intros span s a b p1 pounds q1 content q2 F Q QS p. inversion F as [|? ? _ F']; subst. unfold parse_raw_string. cbn [p pp_inner app next obind].
  destruct pounds as [|p2 pounds]; cbn [app next obind].
  - rewrite QS. reflexivity.
  - inversion F' as [|? ? (_ & P2) _]; subst. rewrite P2. reflexivity.
Qed.
Print Assumptions C59_pounds.
Definition raw (pounds : list ppair) (content : string) : ppair :=
  mkPPair R_raw_string [] 0 20 (pounds ++ [leaf R_quote [34%N] 2; leaf R_inner_raw_str (lit content) 3; leaf R_quote [34%N] 8]).
Example C59_ex : forall span,
  parse_raw_string (raw [] "a\b") span = Ret (inl (mkNode (PStr (lit "a\b")) (mkMSpan (ms_path span) 0 20))) /\
  parse_raw_string (raw [leaf R_pound (lit "#") 1] "hello") span = Ret (inl (mkNode (PStr [34%N]) (mkMSpan (ms_path span) 0 20))) /\
  parse_raw_string (raw [leaf R_pound (lit "#") 1; leaf R_pound (lit "#") 2] "hello") span =
    Ret (inl (mkNode (PStr (lit "#")) (mkMSpan (ms_path span) 0 20))).
Proof. intro span. repeat split. Qed.
(** C59, as intended for all raw strings, is false. *)
Theorem C59_every_raw_string_refuted : exists p e, syn_terminal p /\ den_terminal p e /\
  forall span n, parse_raw_string p span = Ret (inl n) -> n_expr n <> e.
Proof.
  exists (raw [leaf R_pound (lit "#") 1] "hello"), (PStr (lit "hello")).
  split; [apply (Syn_raw [] 0 20 [_]); repeat constructor|]. split; [apply (Den_raw [] 0 20 [_]); repeat constructor|].
  intros span n E. vm_compute in E. injection E as <-. vm_compute. discriminate.
Qed.
Print Assumptions C59_every_raw_string_refuted.

(** C60: a rule is read with its documentation, name, parameters, silence, place and expression. *)
Theorem C60_exact : forall path p docs name params silent e r,
  rule_syntax p docs name params silent e -> syn_expression e -> tame e ->
  (parse_grammar_rule path p = Ret (inl r) <->
   exists n, den_expression path e n /\ r = mkParseRule docs name params (at_pair path p) n silent).
Proof.
  intros path p docs name params silent e r R S T. rewrite (parse_rule_reads path _ _ _ _ _ _ R).
  destruct (parse_node_total (at_pair path p) e S T) as ([n|f] & E); rewrite E; cbn [pbind obind]; split.
  - intro H. injection H as <-. exists n. split; [apply (proj1 (parse_node_iff (at_pair path p) e n S T)), E|reflexivity].
  - intros (m & D & ->). apply (proj2 (parse_node_iff (at_pair path p) e m S T)) in D. rewrite E in D. injection D as ->. reflexivity.
  - discriminate.
  - intros (m & D & _). apply (proj2 (parse_node_iff (at_pair path p) e m S T)) in D. congruence.
Qed.
Print Assumptions C60_exact.
(** C60: the fault of a rule is the first one of its expression; nothing else can be wrong with it. *)
Theorem C60_error : forall path p docs name params silent e f,
  rule_syntax p docs name params silent e -> syn_expression e -> tame e ->
  (parse_grammar_rule path p = Ret (inr f) <-> first_fault e f).
Proof.
  intros path p docs name params silent e f R S T. rewrite (parse_rule_reads path _ _ _ _ _ _ R).
  rewrite <- (parse_node_fault (at_pair path p) e f S T).
  destruct (parse_node_total (at_pair path p) e S T) as ([n|g] & E); rewrite E; cbn [pbind obind]; unfold ok; split; intro H;
    first [discriminate|injection H as <-; reflexivity].
Qed.
Print Assumptions C60_error.
Theorem C60_total : forall path p docs name params silent e,
  rule_syntax p docs name params silent e -> syn_expression e -> tame e -> exists r, parse_grammar_rule path p = Ret r.
Proof.
  intros path p docs name params silent e R S T. rewrite (parse_rule_reads path _ _ _ _ _ _ R).
  destruct (parse_node_total (at_pair path p) e S T) as ([n|g] & E); rewrite E; eexists; reflexivity.
Qed.
Print Assumptions C60_total.
Definition sample_rule : ppair :=
  mkPPair R_grammar_rule [] 0 40
    [leaf R_rule_doc (lit "///  Two words ") 0; leaf R_identifier (lit "r") 16;
     mkPPair R_arguments (lit "(p,q)") 17 22 [leaf R_opening_paren (lit "(") 17; leaf R_identifier (lit "p") 18; leaf R_comma (lit ",") 19;
       leaf R_identifier (lit "q") 20; leaf R_closing_paren (lit ")") 21];
     leaf R_assignment_operator (lit "=") 23; leaf R_silent_modifier (lit "_") 25;
     leaf R_opening_brace (lit "{") 26; sample_inner; leaf R_closing_brace (lit "}") 39].
Example C60_ex :
  rule_syntax sample_rule [lit "Two words"] (lit "r") [lit "p"; lit "q"] true sample_inner /\ syn_expression sample_inner /\ tame sample_inner /\
  parse_grammar_rule (lit "f") sample_rule =
    Ret (inl (mkParseRule [lit "Two words"] (lit "r") [lit "p"; lit "q"] (mkMSpan (lit "f") 0 40)
      (mkNode (PSeq (mkNode (PPath [lit "b"] None) (mkMSpan (lit "f") 14 15)) (mkNode (PPath [lit "c"] None) (mkMSpan (lit "f") 16 17)) TriviaMandatory)
         (mkMSpan (lit "f") 14 17)) true)).
Proof.
  split; [|split; [|split; [tamed|vm_compute; reflexivity]]].
  - apply (Rule_syntax [] 0 40 [_] [_] (leaf R_identifier (lit "r") 16) [_]); [|left; reflexivity| |reflexivity|reflexivity|].
    + constructor; [|constructor]. split; [reflexivity|]. exists (lit "  Two words "). split; [reflexivity|]. apply trim_spec. vm_compute. reflexivity.
    + apply (Opt_formals _ _ _ _ [_; _; _]); [reflexivity| |reflexivity]. apply Formals_more; [reflexivity|reflexivity|]. apply Formals_last. reflexivity.
    + apply Body_silent; [reflexivity|]. apply Body_braces; reflexivity.
  - apply (Syn_expression _ _ _ []); [left; reflexivity|].
    apply Syn_more; [apply syn_plain, syn_ident|right; exists TriviaMandatory; constructor|]. apply Syn_last, syn_plain, syn_ident.
Qed.

(** C60: comments: the marker and the white space around the text are removed, nothing else. *)
Theorem C60_rule_doc : forall p s d, pp_str p = lit "///" ++ s -> (parse_rule_doc p = Ret (inl d) <-> trimmed s d).
Proof.
  intros p s d E. rewrite <- trim_spec. unfold parse_rule_doc. rewrite E. change 3 with (blen (lit "///")).
  rewrite Proof_Text.get_from_app. cbn [or_panic obind]. unfold ok. split; [intro H; injection H as <-; reflexivity|intros ->; reflexivity].
Qed.
Print Assumptions C60_rule_doc.
Theorem C60_grammar_doc : forall p s d, pp_str p = lit "//!" ++ s -> (parse_grammar_doc p = Ret (inl d) <-> trimmed s d).
Proof.
  intros p s d E. rewrite <- trim_spec. unfold parse_grammar_doc. rewrite E. change 3 with (blen (lit "//!")).
  rewrite Proof_Text.get_from_app. cbn [or_panic obind]. unfold ok. split; [intro H; injection H as <-; reflexivity|intros ->; reflexivity].
Qed.
Print Assumptions C60_grammar_doc.
Example C60_doc_ex :
  parse_grammar_doc (leaf R_grammar_doc (lit "//! A  b" ++ [0x3000; 9]%N) 0) = Ret (inl (lit "A  b")) /\ trimmed (lit " A  b" ++ [0x3000; 9]%N) (lit "A  b").
Proof. split; [vm_compute; reflexivity|apply trim_spec; vm_compute; reflexivity]. Qed.
