(** Theorems about single expressions, for both entry points: C01-C06, C14, C17-C23. *)
From Coq Require Import String List NArith ZArith Arith Bool Lia.
From Verif Require Import Model_Text Model_Position Model_Span Model_Stack Model_Tracker Model_Node
  Spec_Text Spec_Peg Spec_Run Spec_Tracker Spec_Yield Proof_Run Proof_Yield Proof_Node Proof_Entry
  Example_Grammar.
Import ListNotations.
Open Scope list_scope.

(** C01: no panic, results on boundaries, inside the input, and the stack stays well formed. *)
Theorem C01_no_panic : forall addr s env property k n p K sv t,
  boundary s p -> valid_stack K ->
  let st := mkState (mkStack K sv) t in
  try_parse addr s env property k n p st <> Panic /\ check addr s env property k n p st <> Panic /\
  (forall p' v st', try_parse addr s env property k n p st = Ret (Some (p', v), st') ->
     boundary s p' /\ p <= p' <= blen s /\ valid_stack (stk_items (st_stack st'))) /\
  (forall p' st', check addr s env property k n p st = Ret (Some p', st') ->
     boundary s p' /\ p <= p' <= blen s /\ valid_stack (stk_items (st_stack st'))).
Proof. exact safe. Qed.
Print Assumptions C01_no_panic.
Example C01_no_panic_ex :
  boundary (lit "ab = ab") 0 /\ valid_stack [] /\
  option_map fst (match try_parse 0 (lit "ab = ab") sample no_property 20 (Rule r_twice []) 0 at_new with
                  | Ret (Some (p, _), st) => Some (p, st) | _ => None end) = Some 7.
Proof. split; [exists [], (lit "ab = ab"); auto|]. split; [exists []; constructor|]. reflexivity. Qed.

(** C02: literals and single characters. *)
Theorem C02_literal_node : forall addr s env property k pre post t st, s = pre ++ post ->
  (forall r, post = t ++ r ->
     both addr s env property (S k) (Str t) (blen pre) st (Some (blen (pre ++ t), VUnit)) st) /\
  (~ starts_with t post -> both addr s env property (S k) (Str t) (blen pre) st None st).
Proof. exact literal_node. Qed.
Print Assumptions C02_literal_node.
Example C02_literal_node_ex :
  both 0 (lit "xab") sample no_property 1 (Str (lit "ab")) 1 at_new (Some (3, VUnit)) at_new /\
  both 0 (lit "xab") sample no_property 1 (Str (lit "b")) 1 at_new None at_new.
Proof. repeat split; reflexivity. Qed.

Theorem C02_char_node : forall addr s env property k pre post c st, s = pre ++ post ->
  (forall r, post = c :: r ->
     both addr s env property (S k) (Char c) (blen pre) st (Some (blen (pre ++ [c]), VUnit)) st) /\
  ((forall r, post <> c :: r) -> both addr s env property (S k) (Char c) (blen pre) st None st).
Proof. exact char_node. Qed.
Print Assumptions C02_char_node.
Example C02_char_node_ex :
  both 0 [233; 97]%N sample no_property 1 (Char 233%N) 0 at_new (Some (2, VUnit)) at_new /\
  both 0 [233; 97]%N sample no_property 1 (Char 97%N) 0 at_new None at_new.
Proof. repeat split; reflexivity. Qed.

(** C03: literals up to ASCII case; the value is the text as it appears in the input. *)
Theorem C03_insensitive_node : forall addr s env property k pre post t st, s = pre ++ post ->
  (forall m r, post = m ++ r -> map ascii_fold m = map ascii_fold t ->
     both addr s env property (S k) (Insens t) (blen pre) st (Some (blen (pre ++ m), VInsens m)) st) /\
  ((forall m r, post = m ++ r -> map ascii_fold m <> map ascii_fold t) ->
     both addr s env property (S k) (Insens t) (blen pre) st None st).
Proof. exact insensitive_node. Qed.
Print Assumptions C03_insensitive_node.
Example C03_insensitive_node_ex :
  both 0 (lit "xAb") sample no_property 1 (Insens (lit "aB")) 1 at_new
    (Some (3, VInsens (lit "Ab"))) at_new /\
  both 0 (lit "xA") sample no_property 1 (Insens (lit "aB")) 1 at_new None at_new.
Proof. repeat split; reflexivity. Qed.

(** C04: character classes. *)
Theorem C04_range_node : forall addr s env property lo hi k pre post st, s = pre ++ post ->
  (forall c r, post = c :: r -> (lo <= c <= hi)%N ->
     both addr s env property (S k) (CharRange lo hi) (blen pre) st
       (Some (blen (pre ++ [c]), VChar c)) st) /\
  ((forall c r, post = c :: r -> ~ (lo <= c <= hi)%N) ->
     both addr s env property (S k) (CharRange lo hi) (blen pre) st None st).
Proof. exact range_node. Qed.
Print Assumptions C04_range_node.
Example C04_range_node_ex :
  both 0 (lit "xz") sample no_property 1 (CharRange 97%N 122%N) 1 at_new (Some (2, VChar 122%N)) at_new /\
  both 0 (lit "xZ") sample no_property 1 (CharRange 97%N 122%N) 1 at_new None at_new.
Proof. repeat split; reflexivity. Qed.

Theorem C04_any_node : forall addr s env property k pre post st, s = pre ++ post ->
  (forall c r, post = c :: r -> True ->
     both addr s env property (S k) Any (blen pre) st (Some (blen (pre ++ [c]), VChar c)) st) /\
  ((forall c r, post = c :: r -> ~ True) -> both addr s env property (S k) Any (blen pre) st None st).
Proof. exact any_node. Qed.
Print Assumptions C04_any_node.
Example C04_any_node_ex :
  both 0 [8364; 97]%N sample no_property 1 Any 0 at_new (Some (3, VChar 8364%N)) at_new /\
  both 0 [8364; 97]%N sample no_property 1 Any 4 at_new None at_new.
Proof. repeat split; reflexivity. Qed.

Theorem C04_property_node : forall addr s env property q k pre post st, s = pre ++ post ->
  (forall c r, post = c :: r -> property q c = true ->
     both addr s env property (S k) (Property q) (blen pre) st (Some (blen (pre ++ [c]), VChar c)) st) /\
  ((forall c r, post = c :: r -> property q c <> true) ->
     both addr s env property (S k) (Property q) (blen pre) st None st).
Proof. exact property_node. Qed.
Print Assumptions C04_property_node.
Example C04_property_node_ex :
  let even := fun (p : N) (c : char) => N.even c in
  both 0 (lit "xb") sample even 1 (Property 7) 1 at_new (Some (2, VChar 98%N)) at_new /\
  both 0 (lit "xa") sample even 1 (Property 7) 1 at_new None at_new.
Proof. repeat split; reflexivity. Qed.

(** The built-in ASCII classes. *)
Definition is_class (addr : N) (s : text) (env : rule -> rule_def) (property : N -> char -> bool)
  (d : nat) (n : node) (P : char -> Prop) : Prop := forall k pre post st, s = pre ++ post ->
  (forall c r, post = c :: r -> P c ->
     exists v, both addr s env property (d + k) n (blen pre) st (Some (blen (pre ++ [c]), v)) st) /\
  ((forall c r, post = c :: r -> ~ P c) -> both addr s env property (d + k) n (blen pre) st None st).
Theorem C04_ascii_nodes : forall addr s env property,
  is_class addr s env property 1 ascii_digit (fun c => 48 <= c <= 57)%N /\
  is_class addr s env property 1 ascii_nonzero_digit (fun c => 49 <= c <= 57)%N /\
  is_class addr s env property 1 ascii_bin_digit (fun c => 48 <= c <= 49)%N /\
  is_class addr s env property 1 ascii_oct_digit (fun c => 48 <= c <= 55)%N /\
  is_class addr s env property 2 ascii_hex_digit
    (fun c => 48 <= c <= 57 \/ 97 <= c <= 102 \/ 65 <= c <= 70)%N /\
  is_class addr s env property 1 ascii_alpha_lower (fun c => 97 <= c <= 122)%N /\
  is_class addr s env property 1 ascii_alpha_upper (fun c => 65 <= c <= 90)%N /\
  is_class addr s env property 2 ascii_alpha (fun c => 97 <= c <= 122 \/ 65 <= c <= 90)%N /\
  is_class addr s env property 3 ascii_alphanumeric
    (fun c => 97 <= c <= 122 \/ 65 <= c <= 90 \/ 48 <= c <= 57)%N /\
  is_class addr s env property 1 ascii (fun c => c <= 127)%N.
Proof. exact ascii_nodes. Qed.
Print Assumptions C04_ascii_nodes.
Example C04_ascii_nodes_ex :
  both 0 (lit "xF") sample no_property 2 ascii_hex_digit 1 at_new
    (Some (2, VChoice 2 (VChar 70%N))) at_new /\
  both 0 (lit "xG") sample no_property 2 ascii_hex_digit 1 at_new None at_new.
Proof. repeat split; reflexivity. Qed.

(** C55: start of input, end of input, the empty expression and the failing one. *)
Theorem C55_anchors : forall addr s env property k pre post st, s = pre ++ post ->
  both addr s env property (S k) Empty (blen pre) st (Some (blen pre, VUnit)) st /\
  both addr s env property (S k) NONE (blen pre) st None st /\
  (pre = [] -> both addr s env property (S k) Soi (blen pre) st (Some (blen pre, VUnit)) st) /\
  (pre <> [] -> both addr s env property (S k) Soi (blen pre) st None st) /\
  (post = [] -> both addr s env property (S k) Eoi (blen pre) st (Some (blen pre, VUnit)) st) /\
  (post <> [] -> both addr s env property (S k) Eoi (blen pre) st None st).
Proof. exact anchors_node. Qed.
Print Assumptions C55_anchors.
Example C55_anchors_ex :
  both 0 (lit "ab") sample no_property 1 Soi 0 at_new (Some (0, VUnit)) at_new /\
  both 0 (lit "ab") sample no_property 1 Soi 1 at_new None at_new /\
  both 0 (lit "ab") sample no_property 1 Eoi 2 at_new (Some (2, VUnit)) at_new /\
  both 0 (lit "ab") sample no_property 1 Eoi 1 at_new None at_new.
Proof. repeat split; reflexivity. Qed.

(** C05: newlines. *)
Theorem C05_newline : forall addr s env property k pre post st, s = pre ++ post ->
  (forall r, post = CR :: LF :: r ->
     both addr s env property (S k) Newline (blen pre) st
       (Some (blen (pre ++ [CR; LF]), VNewline NL_CRLF)) st) /\
  (forall r, post = LF :: r ->
     both addr s env property (S k) Newline (blen pre) st
       (Some (blen (pre ++ [LF]), VNewline NL_LF)) st) /\
  (forall r, post = CR :: r -> (forall r', r <> LF :: r') ->
     both addr s env property (S k) Newline (blen pre) st
       (Some (blen (pre ++ [CR]), VNewline NL_CR)) st) /\
  ((forall r, post <> CR :: r) -> (forall r, post <> LF :: r) ->
     both addr s env property (S k) Newline (blen pre) st None st).
Proof. exact newline_node. Qed.
Print Assumptions C05_newline.
Example C05_newline_ex :
  both 0 [97; 13; 10]%N sample no_property 1 Newline 1 at_new (Some (3, VNewline NL_CRLF)) at_new /\
  both 0 [97; 13; 13]%N sample no_property 1 Newline 1 at_new (Some (2, VNewline NL_CR)) at_new /\
  both 0 [97; 10; 13]%N sample no_property 1 Newline 1 at_new (Some (2, VNewline NL_LF)) at_new /\
  both 0 [97; 13; 13]%N sample no_property 1 Newline 0 at_new None at_new.
Proof. repeat split; reflexivity. Qed.

(** C06: the node that skips [n] characters. *)
Theorem C06_skip_node : forall addr s env property k pre post n st, s = pre ++ post ->
  (forall m r, post = m ++ r -> length m = n ->
     both addr s env property (S k) (SkipChar n) (blen pre) st
       (Some (blen (pre ++ m), VSpan (mkSpan addr s (blen pre) (blen (pre ++ m))))) st) /\
  (length post < n -> both addr s env property (S k) (SkipChar n) (blen pre) st None st).
Proof. exact skip_node. Qed.
Print Assumptions C06_skip_node.
Example C06_skip_node_ex :
  both 0 [97; 233; 98]%N sample no_property 1 (SkipChar 2) 1 at_new
    (Some (4, VSpan (mkSpan 0 [97; 233; 98]%N 1 4))) at_new /\
  both 0 [97; 233; 98]%N sample no_property 1 (SkipChar 3) 1 at_new None at_new.
Proof. repeat split; reflexivity. Qed.

(** C14: checking is parsing without the value: same result, same stack, same tracker. *)
Theorem C14_check_parse : forall addr s env property k n p K sv t, boundary s p -> valid_stack K ->
  let st := mkState (mkStack K sv) t in
  check addr s env property k n p st = forget (try_parse addr s env property k n p st).
Proof. exact check_forget. Qed.
Print Assumptions C14_check_parse.
Example C14_check_parse_ex :
  check 0 (lit "ab=ab") sample no_property 20 (Rule r_twice []) 0 at_new
  = Ret (Some 5, mkState (mkStack [mkSpan 0 (lit "ab=ab") 0 2] []) (mkTracker 3 true [] [])) /\
  forget (try_parse 0 (lit "ab=ab") sample no_property 20 (Rule r_twice []) 0 at_new)
  = Ret (Some 5, mkState (mkStack [mkSpan 0 (lit "ab=ab") 0 2] []) (mkTracker 3 true [] [])).
Proof. split; reflexivity. Qed.

Theorem C14_text_entry_points : forall addr s env property k n,
  text_check_partial addr s env property k n =
    match text_try_parse_partial addr s env property k n with
    | Ret (inl (p, _)) => Ret (inl p)
    | Ret (inr t) => Ret (inr t)
    | Panic => Panic
    | OutOfFuel => OutOfFuel
    end /\
  text_check addr s env property k n =
    match text_try_parse addr s env property k n with
    | Ret (inl _) => Ret (inl tt)
    | Ret (inr t) => Ret (inr t)
    | Panic => Panic
    | OutOfFuel => OutOfFuel
    end.
Proof. exact text_check_forget. Qed.
Print Assumptions C14_text_entry_points.
Example C14_text_entry_points_ex :
  text_check 0 (lit "ab=ab") sample no_property 20 (Rule r_twice []) = Ret (inl tt) /\
  text_check_partial 0 (lit "ab=abc") sample no_property 20 (Rule r_twice []) = Ret (inl 5).
Proof. split; reflexivity. Qed.

(** C17: ordered choice. *)
Theorem C17_choice_succeeds : forall addr s env property ts p K p' v K', boundary s p -> valid_stack K ->
  (yields addr s env property (Choice ts) p K (Some (p', v, K')) <->
   exists i t w, nth_error ts i = Some t /\ v = VChoice i w /\
     yields addr s env property t p K (Some (p', w, K')) /\
     forall j u, j < i -> nth_error ts j = Some u -> yields addr s env property u p K None).
Proof. exact choice_ok. Qed.
Print Assumptions C17_choice_succeeds.
Example C17_choice_succeeds_ex : boundary (lit "ab") 0 /\ valid_stack [] /\
  try_parse 0 (lit "ab") sample no_property 9 (Choice [Str (lit "b"); Str (lit "a"); Str (lit "ab")]) 0 at_new
  = Ret (Some (1, VChoice 1 VUnit), at_new).
Proof. split; [exists [], (lit "ab"); auto|]. split; [exists []; constructor|reflexivity]. Qed.

Theorem C17_choice_fails : forall addr s env property ts p K, boundary s p -> valid_stack K ->
  (yields addr s env property (Choice ts) p K None <->
   Forall (fun t => yields addr s env property t p K None) ts).
Proof. exact choice_fail. Qed.
Print Assumptions C17_choice_fails.
Example C17_choice_fails_ex : boundary (lit "ab") 0 /\ valid_stack [] /\
  try_parse 0 (lit "ab") sample no_property 9 (Choice [Str (lit "b"); Seq [(Push (Str (lit "a")), Empty); (Str (lit "x"), Empty)]]) 0 at_new
  = Ret (None, at_new).
Proof. split; [exists [], (lit "ab"); auto|]. split; [exists []; constructor|reflexivity]. Qed.

(** C56: sequences. *)
Theorem C56_sequence : forall addr s env property fields p K o, boundary s p -> valid_stack K ->
  (yields addr s env property (Seq fields) p K o <->
   exists o', yields_all addr s env property (kept_fields fields) p K o' /\
     o = match o' with Some (p', vs, K') => Some (p', VSeq vs, K') | None => None end).
Proof. exact sequence_yield. Qed.
Print Assumptions C56_sequence.
Example C56_sequence_ex : boundary (lit "ab = ab") 0 /\ valid_stack [] /\
  visible_check (check 0 (lit "ab = ab") sample no_property 20 (sample_body r_twice) 0 at_new)
  = Ret (Some (7, [mkSpan 0 (lit "ab = ab") 0 2])) /\
  visible_check (check 0 (lit " ab = ab") sample no_property 20 (sample_body r_twice) 0 at_new) = Ret None.
Proof. split; [exists [], (lit "ab = ab"); auto|]. split; [exists []; constructor|split; reflexivity]. Qed.

(** C18: repetitions. *)
Theorem C18_repetition_succeeds : forall addr s env property t trivia min max p K p' v K',
  boundary s p -> valid_stack K ->
  (yields addr s env property (RepMinMax t trivia min max) p K (Some (p', v, K')) <->
   exists vs, v = VRep vs /\ rounds addr s env property t trivia 0 p K vs p' K' /\
     (N.of_nat (length vs) <= max)%N /\
     (N.of_nat (length vs) = max \/
      (min <= N.of_nat (length vs))%N /\
      round_fails addr s env property t trivia (length vs) p' K')).
Proof. exact repetition_ok. Qed.
Print Assumptions C18_repetition_succeeds.
Example C18_repetition_succeeds_ex : boundary (lit "a a a ") 0 /\ valid_stack [] /\
  visible (try_parse 0 (lit "a a a ") sample no_property 20 (RepMinMax (Str (lit "a")) n_blank 2 5) 0 at_new)
  = Ret (Some (5, VRep [VUnit; VUnit; VUnit], [])) /\
  visible (try_parse 0 (lit "a a a ") sample no_property 20 (RepMinMax (Str (lit "a")) n_blank 0 2) 0 at_new)
  = Ret (Some (3, VRep [VUnit; VUnit], [])).
Proof. split; [exists [], (lit "a a a "); auto|]. split; [exists []; constructor|split; reflexivity]. Qed.

Theorem C18_repetition_fails : forall addr s env property t trivia min max p K,
  boundary s p -> valid_stack K ->
  (yields addr s env property (RepMinMax t trivia min max) p K None <->
   exists vs p' K', rounds addr s env property t trivia 0 p K vs p' K' /\
     round_fails addr s env property t trivia (length vs) p' K' /\
     (N.of_nat (length vs) < min)%N /\ (N.of_nat (length vs) < max)%N).
Proof. exact repetition_fail. Qed.
Print Assumptions C18_repetition_fails.
Example C18_repetition_fails_ex : boundary (lit "a a b") 0 /\ valid_stack [] /\
  visible (try_parse 0 (lit "a a b") sample no_property 20 (RepMinMax (Str (lit "a")) n_blank 3 5) 0 at_new)
  = Ret None.
Proof. split; [exists [], (lit "a a b"); auto|]. split; [exists []; constructor|reflexivity]. Qed.

Theorem C18_at_least_min : forall addr s env property t trivia min max p K p' v K',
  boundary s p -> valid_stack K -> (min <= max)%N ->
  yields addr s env property (RepMinMax t trivia min max) p K (Some (p', v, K')) ->
  exists vs, v = VRep vs /\ (min <= N.of_nat (length vs) <= max)%N.
Proof.
  exact (fun addr s env property t trivia min max p K p' v K' HB HK L H =>
    match proj1 (repetition_ok addr s env property t trivia min max p K p' v K' HB HK) H with
    | ex_intro _ vs (conj E (conj _ (conj L1 D))) =>
        ex_intro _ vs (conj E (conj
          match D with
          | or_introl E1 => eq_ind_r (fun x => (min <= x)%N) L E1
          | or_intror (conj L2 _) => L2
          end L1))
    end).
Qed.
Print Assumptions C18_at_least_min.
Example C18_at_least_min_ex : (2 <= 5)%N /\
  visible (try_parse 0 (lit "aaa") sample no_property 20 (RepMinMax (Str (lit "a")) Empty 2 5) 0 at_new)
  = Ret (Some (3, VRep [VUnit; VUnit; VUnit], [])).
Proof. split; [discriminate|reflexivity]. Qed.

(** Nothing keeps the minimum from being larger than the maximum; then fewer than the minimum are
    accepted. *)
Theorem C18_min_above_max_refuted : exists s min max vs p,
  text_try_parse_partial 0 s sample no_property 20 (RepMinMax (Str (lit "a")) Empty min max)
  = Ret (inl (p, VRep vs)) /\ (N.of_nat (length vs) < min)%N.
Proof.
  exact (ex_intro _ (lit "aaaa") (ex_intro _ 3%N (ex_intro _ 2%N (ex_intro _ [VUnit; VUnit] (ex_intro _ 2
    (conj eq_refl eq_refl)))))).
Qed.
Print Assumptions C18_min_above_max_refuted.

(** The repetitions with fewer parameters: any number, at least one, at least [n], at most [n]; without
    a maximum, only the largest machine number ends a repetition early. *)
Theorem C18_unbounded : forall addr s env property t trivia n p K p' v K',
  boundary s p -> valid_stack K ->
  let largest := 18446744073709551615%N in
  let succeeds node (enough : N -> Prop) (most : N) :=
    yields addr s env property node p K (Some (p', v, K')) <->
    exists vs, v = VRep vs /\ rounds addr s env property t trivia 0 p K vs p' K' /\
      (N.of_nat (length vs) <= most)%N /\
      (N.of_nat (length vs) = most \/
       enough (N.of_nat (length vs)) /\ round_fails addr s env property t trivia (length vs) p' K') in
  succeeds (Rep t trivia) (fun _ => True) largest /\
  succeeds (RepOnce t trivia) (fun c => c <> 0)%N largest /\
  succeeds (RepMin t trivia n) (fun c => n <= c)%N largest /\
  succeeds (RepMax t trivia n) (fun _ => True) n.
Proof.
  intros addr s env property t trivia n p K p' v K' B V largest succeeds.
  repeat split; intro H;
    [apply (proj1 (repetition_ok addr s env property t trivia 0 largest p K p' v K' B V)) in H
    |apply (proj2 (repetition_ok addr s env property t trivia 0 largest p K p' v K' B V))
    |apply (proj1 (repetition_ok addr s env property t trivia 1 largest p K p' v K' B V)) in H
    |apply (proj2 (repetition_ok addr s env property t trivia 1 largest p K p' v K' B V))
    |apply (proj1 (repetition_ok addr s env property t trivia n largest p K p' v K' B V)) in H
    |apply (proj2 (repetition_ok addr s env property t trivia n largest p K p' v K' B V))
    |apply (proj1 (repetition_ok addr s env property t trivia 0 n p K p' v K' B V)) in H
    |apply (proj2 (repetition_ok addr s env property t trivia 0 n p K p' v K' B V))];
    destruct H as (vs & E & R & L & [D|(D & F)]); exists vs; (split; [exact E|split; [exact R|split; [exact L|]]]);
    first [left; exact D|right; split; [lia|exact F]|right; split; [exact I|exact F]].
Qed.
Print Assumptions C18_unbounded.
Example C18_unbounded_ex : boundary (lit "aab") 0 /\ valid_stack [] /\
  (let parse n p := visible (try_parse 0 (lit "aab") sample no_property 20 n p at_new) in
   let a := Str (lit "a") in
   parse (Rep a Empty) 0 = Ret (Some (2, VRep [VUnit; VUnit], [])) /\ parse (Rep a Empty) 2 = Ret (Some (2, VRep [], [])) /\
   parse (RepOnce a Empty) 1 = Ret (Some (2, VRep [VUnit], [])) /\ parse (RepOnce a Empty) 2 = Ret None /\
   parse (RepMin a Empty 2) 0 = Ret (Some (2, VRep [VUnit; VUnit], [])) /\ parse (RepMin a Empty 2) 1 = Ret None /\
   parse (RepMax a Empty 1) 0 = Ret (Some (1, VRep [VUnit], []))).
Proof. split; [exists [], (lit "aab"); auto|]. split; [exists []; constructor|]. repeat split; vm_compute; reflexivity. Qed.

(** C19: optional expressions and repetitions without minimum never fail. *)
Theorem C19_optional : forall addr s env property t p K o, boundary s p -> valid_stack K ->
  (yields addr s env property (Opt t) p K o <->
   (exists p' v K', yields addr s env property t p K (Some (p', v, K')) /\
      o = Some (p', VOpt (Some v), K')) \/
   (yields addr s env property t p K None /\ o = Some (p, VOpt None, K))).
Proof. exact optional_yield. Qed.
Print Assumptions C19_optional.
Example C19_optional_ex : boundary (lit "ab") 0 /\ valid_stack [] /\
  visible (try_parse 0 (lit "ab") sample no_property 9 (Opt (Seq [(Push (Str (lit "a")), Empty); (Str (lit "x"), Empty)])) 0 at_new)
  = Ret (Some (0, VOpt None, [])) /\
  visible (try_parse 0 (lit "ab") sample no_property 9 (Opt (Push (Str (lit "a")))) 0 at_new)
  = Ret (Some (1, VOpt (Some (VPush VUnit)), [mkSpan 0 (lit "ab") 0 1])).
Proof. split; [exists [], (lit "ab"); auto|]. split; [exists []; constructor|split; reflexivity]. Qed.

Theorem C19_never_fail : forall addr s env property k t trivia max p st st',
  try_parse addr s env property k (RepMax t trivia max) p st <> Ret (None, st') /\
  check addr s env property k (RepMax t trivia max) p st <> Ret (None, st') /\
  try_parse addr s env property k (Opt t) p st <> Ret (None, st') /\
  check addr s env property k (Opt t) p st <> Ret (None, st').
Proof. exact zero_min_never_fails. Qed.
Print Assumptions C19_never_fail.
Example C19_never_fail_ex :
  visible (try_parse 0 (lit "b") sample no_property 9 (RepMax (Str (lit "a")) Empty 7) 0 at_new)
  = Ret (Some (0, VRep [], [])).
Proof. reflexivity. Qed.

(** The never-failing entry point of a repetition is the ordinary one with its own tracker. *)
Theorem C19_never_failing_entry : forall addr s env property k t trivia max p stk,
  rep_parse_with_partial addr s env property k t trivia max p stk =
  match try_parse addr s env property (S k) (RepMax t trivia max) p (mkState stk (tracker_new p)) with
  | Ret (Some (p', v), st') => Ret (p', v, st_stack st')
  | Ret (None, _) => Panic
  | Panic => Panic
  | OutOfFuel => OutOfFuel
  end.
Proof. exact never_failed_entry. Qed.
Print Assumptions C19_never_failing_entry.
Example C19_never_failing_entry_ex :
  rep_parse_with_partial 0 (lit "aab") sample no_property 9 (Push (Str (lit "a"))) Empty 7 1 stack_new
  = Ret (2, VRep [VPush VUnit], mkStack [mkSpan 0 (lit "aab") 1 2] []).
Proof. reflexivity. Qed.

(** So is the never-failing entry point of the empty expression. *)
Theorem C19_never_failing_empty : forall addr s env property k p stk,
  try_parse addr s env property (S k) Empty p (mkState stk (tracker_new p)) =
  let '(p', v, stk') := empty_parse_with_partial p stk in Ret (Some (p', v), mkState stk' (tracker_new p)).
Proof. reflexivity. Qed.
Print Assumptions C19_never_failing_empty.
Example C19_never_failing_empty_ex : empty_parse_with_partial 3 stack_new = (3, VUnit, stack_new).
Proof. reflexivity. Qed.

(** C20: predicates. *)
Theorem C20_positive : forall addr s env property t p K o, boundary s p -> valid_stack K ->
  (yields addr s env property (Positive t) p K o <->
   (exists p' v K', yields addr s env property t p K (Some (p', v, K')) /\
      o = Some (p, VPositive v, K)) \/
   (yields addr s env property t p K None /\ o = None)).
Proof. exact positive_yield. Qed.
Print Assumptions C20_positive.
Example C20_positive_ex : boundary (lit "ab") 0 /\ valid_stack [] /\
  visible (try_parse 0 (lit "ab") sample no_property 9 (Positive (Push (Str (lit "a")))) 0 at_new)
  = Ret (Some (0, VPositive (VPush VUnit), [])) /\
  visible (try_parse 0 (lit "ab") sample no_property 9 (Positive (Str (lit "b"))) 0 at_new) = Ret None.
Proof. split; [exists [], (lit "ab"); auto|]. split; [exists []; constructor|split; reflexivity]. Qed.

Theorem C20_negative : forall addr s env property t p K o, boundary s p -> valid_stack K ->
  (yields addr s env property (Negative t) p K o <->
   (exists p' v K', yields addr s env property t p K (Some (p', v, K')) /\ o = None) \/
   (yields addr s env property t p K None /\ o = Some (p, VUnit, K))).
Proof. exact negative_yield. Qed.
Print Assumptions C20_negative.
Example C20_negative_ex : boundary (lit "ab") 0 /\ valid_stack [] /\
  visible (try_parse 0 (lit "ab") sample no_property 9 (Negative (Push (Str (lit "a")))) 0 at_new) = Ret None /\
  visible (try_parse 0 (lit "ab") sample no_property 9 (Negative (Str (lit "b"))) 0 at_new)
  = Ret (Some (0, VUnit, [])).
Proof. split; [exists [], (lit "ab"); auto|]. split; [exists []; constructor|split; reflexivity]. Qed.

Theorem C20_stack_and_position : forall addr s env property k n p K sv t o st',
  boundary s p -> valid_stack K ->
  (try_parse addr s env property k (Positive n) p (mkState (mkStack K sv) t) = Ret (o, st') \/
   try_parse addr s env property k (Negative n) p (mkState (mkStack K sv) t) = Ret (o, st')) ->
  st_stack st' = mkStack K sv /\ match o with Some (p', _) => p' = p | None => True end.
Proof. exact predicate_stack. Qed.
Print Assumptions C20_stack_and_position.
Example C20_stack_and_position_ex : boundary (lit "ab") 0 /\ valid_stack [] /\
  try_parse 0 (lit "ab") sample no_property 9
    (Negative (Seq [(Push (Str (lit "a")), Empty); (Push (Str (lit "b")), Empty)])) 0 at_new
  = Ret (None, at_new).
Proof. split; [exists [], (lit "ab"); auto|]. split; [exists []; constructor|reflexivity]. Qed.

(** C21: snapshots are balanced, and failures are undone. *)
Theorem C21_snapshots_balanced : forall addr s env property k n p K sv t, boundary s p -> valid_stack K ->
  (forall o st', try_parse addr s env property k n p (mkState (mkStack K sv) t) = Ret (o, st') ->
     stk_saved (st_stack st') = sv) /\
  (forall o st', check addr s env property k n p (mkState (mkStack K sv) t) = Ret (o, st') ->
     stk_saved (st_stack st') = sv).
Proof. exact saved_kept. Qed.
Print Assumptions C21_snapshots_balanced.
Example C21_snapshots_balanced_ex :
  let sp := mkSpan 0 (lit "ab") 0 1 in
  boundary (lit "ab") 1 /\ valid_stack [sp] /\
  try_parse 0 (lit "ab") sample no_property 9 (Opt (Seq [(Drop, Empty); (Str (lit "x"), Empty)])) 1
    (mkState (mkStack [sp] [[]; [sp]]) (tracker_new 0))
  = Ret (Some (1, VOpt None), mkState (mkStack [sp] [[]; [sp]]) (tracker_new 0)).
Proof.
  cbn zeta. split; [exists (lit "a"), (lit "b"); auto|]. split; [|reflexivity].
  exists [lit "a"]. repeat constructor. exists [], (lit "b"). auto.
Qed.

Theorem C21_choice_restores : forall addr s env property k ts p K sv t st', boundary s p -> valid_stack K ->
  try_parse addr s env property k (Choice ts) p (mkState (mkStack K sv) t) = Ret (None, st') ->
  st_stack st' = mkStack K sv.
Proof. exact choice_restores. Qed.
Print Assumptions C21_choice_restores.
Example C21_choice_restores_ex : boundary (lit "ab") 0 /\ valid_stack [] /\
  try_parse 0 (lit "ab") sample no_property 9
    (Choice [Seq [(Push (Str (lit "a")), Empty); (Push (Str (lit "b")), Empty); (NONE, Empty)]]) 0 at_new
  = Ret (None, at_new).
Proof. split; [exists [], (lit "ab"); auto|]. split; [exists []; constructor|reflexivity]. Qed.

Theorem C21_optional_restores : forall addr s env property k n p K sv t p' st',
  boundary s p -> valid_stack K ->
  try_parse addr s env property k (Opt n) p (mkState (mkStack K sv) t)
    = Ret (Some (p', VOpt None), st') ->
  p' = p /\ st_stack st' = mkStack K sv.
Proof. exact optional_restores. Qed.
Print Assumptions C21_optional_restores.
Example C21_optional_restores_ex : boundary (lit "ab") 0 /\ valid_stack [] /\
  try_parse 0 (lit "ab") sample no_property 9
    (Opt (Seq [(Push (Str (lit "a")), Empty); (NONE, Empty)])) 0 at_new
  = Ret (Some (0, VOpt None), at_new).
Proof. split; [exists [], (lit "ab"); auto|]. split; [exists []; constructor|reflexivity]. Qed.

Theorem C21_round_restores : forall addr s env property k n trivia i p K sv t st',
  boundary s p -> valid_stack K ->
  restore_on_none (parse_unit (check addr s env property k) (try_parse addr s env property k) n trivia i p)
    (mkState (mkStack K sv) t) = Ret (None, st') ->
  st_stack st' = mkStack K sv.
Proof. exact round_restores. Qed.
Print Assumptions C21_round_restores.
Example C21_round_restores_ex : boundary (lit "ab") 0 /\ valid_stack [] /\
  restore_on_none (parse_unit (check 0 (lit "ab") sample no_property 9) (try_parse 0 (lit "ab") sample no_property 9)
    NONE (Push (Str (lit "a"))) 3 0) at_new = Ret (None, at_new).
Proof. split; [exists [], (lit "ab"); auto|]. split; [exists []; constructor|reflexivity]. Qed.

(** C22: expressions on the stack. [span_text sp t]: the span [sp] denotes the text [t]. *)
Theorem C22_push : forall addr s env property t p K o, boundary s p -> valid_stack K ->
  (yields addr s env property (Push t) p K o <->
   (exists p' v K', yields addr s env property t p K (Some (p', v, K')) /\
      o = Some (p', VPush v, mkSpan addr s p p' :: K')) \/
   (yields addr s env property t p K None /\ o = None)).
Proof. exact push_yield. Qed.
Print Assumptions C22_push.
Example C22_push_ex : boundary (lit "xab") 1 /\ valid_stack [] /\
  visible (try_parse 0 (lit "xab") sample no_property 9 (Push (Str (lit "ab"))) 1 at_new)
  = Ret (Some (3, VPush VUnit, [mkSpan 0 (lit "xab") 1 3])).
Proof. split; [exists (lit "x"), (lit "ab"); auto|]. split; [exists []; constructor|reflexivity]. Qed.

Theorem C22_peek : forall addr s env property k pre post sp K t sv tk,
  s = pre ++ post -> span_text sp t ->
  let st := mkState (mkStack (sp :: K) sv) tk in
  (forall r, post = t ++ r -> both addr s env property (S k) Peek (blen pre) st
     (Some (blen (pre ++ t), VSpan (mkSpan addr s (blen pre) (blen (pre ++ t))))) st) /\
  (~ starts_with t post -> both addr s env property (S k) Peek (blen pre) st None st).
Proof. exact peek_node. Qed.
Print Assumptions C22_peek.
Example C22_peek_ex :
  let s := lit "abab" in
  let st := mkState (mkStack [mkSpan 0 s 0 2; mkSpan 0 s 0 1] []) (tracker_new 0) in
  span_text (mkSpan 0 s 0 2) (lit "ab") /\
  both 0 s sample no_property 1 Peek 2 st (Some (4, VSpan (mkSpan 0 s 2 4))) st /\
  both 0 s sample no_property 1 Peek 1 st None st.
Proof. cbn zeta. split; [exists [], (lit "ab"); auto|]. repeat split; reflexivity. Qed.

Theorem C22_pop : forall addr s env property k pre post sp K t sv tk,
  s = pre ++ post -> span_text sp t ->
  let st := mkState (mkStack (sp :: K) sv) tk in
  let st' := mkState (mkStack K sv) tk in
  (forall r, post = t ++ r ->
     both addr s env property (S k) Pop (blen pre) st (Some (blen (pre ++ t), VSpan sp)) st') /\
  (~ starts_with t post -> both addr s env property (S k) Pop (blen pre) st None st').
Proof. exact pop_node. Qed.
Print Assumptions C22_pop.
Example C22_pop_ex :
  let s := lit "abab" in
  let st := mkState (mkStack [mkSpan 0 s 0 2; mkSpan 0 s 0 1] []) (tracker_new 0) in
  let st' := mkState (mkStack [mkSpan 0 s 0 1] []) (tracker_new 0) in
  span_text (mkSpan 0 s 0 2) (lit "ab") /\
  both 0 s sample no_property 1 Pop 2 st (Some (4, VSpan (mkSpan 0 s 0 2))) st' /\
  both 0 s sample no_property 1 Pop 1 st None st'.
Proof. cbn zeta. split; [exists [], (lit "ab"); auto|]. repeat split; reflexivity. Qed.

Theorem C22_drop : forall addr s env property k p sp K sv tk,
  both addr s env property (S k) Drop p (mkState (mkStack (sp :: K) sv) tk) (Some (p, VUnit))
    (mkState (mkStack K sv) tk).
Proof. exact drop_node. Qed.
Print Assumptions C22_drop.
Example C22_drop_ex :
  both 0 (lit "ab") sample no_property 1 Drop 1 (mkState (mkStack [mkSpan 0 (lit "ab") 0 1] []) (tracker_new 0))
    (Some (1, VUnit)) at_new.
Proof. split; reflexivity. Qed.

(** On an empty stack they fail, and the misuse is recorded. *)
Theorem C22_empty_stack : forall addr s env property k n p sv tk, In n [Peek; Pop; Drop] ->
  both addr s env property (S k) n p (mkState (mkStack [] sv) tk) None
    (mkState (mkStack [] sv) (Proof_Tracker.play [Special (chain_of tk) p EmptyStack] tk)).
Proof. exact empty_stack_node. Qed.
Print Assumptions C22_empty_stack.
Example C22_empty_stack_ex :
  In Pop [Peek; Pop; Drop] /\
  both 0 (lit "ab") sample no_property 1 Pop 1 at_new None
    (mkState stack_new (mkTracker 1 true [(None, ([], [], [EmptyStack]))] [])).
Proof. split; [simpl; auto|]. split; reflexivity. Qed.

(** The whole stack, topmost element first. *)
Theorem C22_peek_all : forall addr s env property k pre post K Ks sv tk,
  s = pre ++ post -> Forall2 span_text K Ks ->
  let st := mkState (mkStack K sv) tk in
  (forall r, post = concat Ks ++ r -> both addr s env property (S k) PeekAll (blen pre) st
     (Some (blen (pre ++ concat Ks), VSpan (mkSpan addr s (blen pre) (blen (pre ++ concat Ks))))) st) /\
  (~ starts_with (concat Ks) post -> both addr s env property (S k) PeekAll (blen pre) st None st).
Proof. exact peek_all_node. Qed.
Print Assumptions C22_peek_all.
Example C22_peek_all_ex :
  let s := lit "abba" in
  let st := mkState (mkStack [mkSpan 0 s 1 2; mkSpan 0 s 0 1] []) (tracker_new 0) in
  Forall2 span_text [mkSpan 0 s 1 2; mkSpan 0 s 0 1] [lit "b"; lit "a"] /\
  both 0 s sample no_property 1 PeekAll 2 st (Some (4, VSpan (mkSpan 0 s 2 4))) st /\
  both 0 s sample no_property 1 PeekAll 0 st None st.
Proof.
  cbn zeta. split; [|repeat split; reflexivity].
  constructor; [exists (lit "a"), (lit "ba"); auto|]. constructor; [exists [], (lit "bba"); auto|constructor].
Qed.

Theorem C22_pop_all : forall addr s env property k pre post K Ks sv tk,
  s = pre ++ post -> Forall2 span_text K Ks ->
  let st := mkState (mkStack K sv) tk in
  (forall r, post = concat Ks ++ r -> both addr s env property (S (S k)) PopAll (blen pre) st
     (Some (blen (pre ++ concat Ks), VSpan (mkSpan addr s (blen pre) (blen (pre ++ concat Ks)))))
     (mkState (mkStack [] sv) tk)) /\
  (~ starts_with (concat Ks) post -> both addr s env property (S (S k)) PopAll (blen pre) st None st).
Proof. exact pop_all_node. Qed.
Print Assumptions C22_pop_all.
Example C22_pop_all_ex :
  let s := lit "abba" in
  let st := mkState (mkStack [mkSpan 0 s 1 2; mkSpan 0 s 0 1] []) (tracker_new 0) in
  Forall2 span_text [mkSpan 0 s 1 2; mkSpan 0 s 0 1] [lit "b"; lit "a"] /\
  both 0 s sample no_property 2 PopAll 2 st (Some (4, VSpan (mkSpan 0 s 2 4))) at_new /\
  both 0 s sample no_property 2 PopAll 0 st None st.
Proof.
  cbn zeta. split; [|repeat split; reflexivity].
  constructor; [exists (lit "a"), (lit "ba"); auto|]. constructor; [exists [], (lit "bba"); auto|constructor].
Qed.

(** C23: slices of the stack; the elements are matched from the bottom of the slice to its top. *)
Theorem C23_slice : forall addr s env property k pre post K Ks sv tk a b lo hi,
  s = pre ++ post -> Forall2 span_text K Ks ->
  stack_index_of (length K) a lo ->
  match b with Some b => stack_index_of (length K) b hi | None => hi = length K end ->
  let st := mkState (mkStack K sv) tk in
  let n := match b with Some b => PeekSlice2 a b | None => PeekSlice1 a end in
  let t := concat (slice Ks lo hi) in
  (forall r, post = t ++ r ->
     both addr s env property (S k) n (blen pre) st (Some (blen (pre ++ t), VUnit)) st) /\
  (~ starts_with t post -> both addr s env property (S k) n (blen pre) st None st).
Proof. exact slice_node. Qed.
Print Assumptions C23_slice.
Example C23_slice_ex :
  let s := lit "abab" in
  let st := mkState (mkStack [mkSpan 0 s 1 2; mkSpan 0 s 0 1] []) (tracker_new 0) in
  stack_index_of 2 (-2) 0 /\ slice [lit "b"; lit "a"] 0 2 = [lit "a"; lit "b"] /\
  both 0 s sample no_property 1 (PeekSlice1 (-2)) 2 st (Some (4, VUnit)) st /\
  both 0 s sample no_property 1 (PeekSlice2 1 0) 2 st (Some (2, VUnit)) st /\
  both 0 s sample no_property 1 (PeekSlice2 (-1) 2) 1 st (Some (2, VUnit)) st.
Proof. cbn zeta. split; [right; split; [lia|reflexivity]|]. repeat split; reflexivity. Qed.

Theorem C23_out_of_bound : forall addr s env property k pre post K Ks sv tk a b,
  s = pre ++ post -> Forall2 span_text K Ks ->
  (~ (- Z.of_nat (length K) <= a <= Z.of_nat (length K))%Z \/
   exists x, b = Some x /\ ~ (- Z.of_nat (length K) <= x <= Z.of_nat (length K))%Z) ->
  let n := match b with Some b => PeekSlice2 a b | None => PeekSlice1 a end in
  both addr s env property (S k) n (blen pre) (mkState (mkStack K sv) tk) None
    (mkState (mkStack K sv)
       (Proof_Tracker.play [Special (chain_of tk) (blen pre) (SliceOutOfBound a b)] tk)).
Proof. exact slice_out_of_bound. Qed.
Print Assumptions C23_out_of_bound.
Example C23_out_of_bound_ex :
  both 0 (lit "ab") sample no_property 1 (PeekSlice2 0 1) 1 at_new None
    (mkState stack_new (mkTracker 1 true [(None, ([], [], [SliceOutOfBound 0 (Some 1%Z)]))] [])).
Proof. split; reflexivity. Qed.

(** The documentation (core/src/typed/template/mod.rs L967, L996) says "in top-to-bottom order of
    the stack"; the elements of the slice are matched from bottom to top. *)
Theorem C23_top_to_bottom_refuted :
  exists pre post K Ks, Forall2 span_text K Ks /\
    (exists r, post = concat Ks ++ r) /\
    let st := mkState (mkStack K []) (tracker_new 0) in
    both 0 (pre ++ post) sample no_property 1 (PeekSlice2 0 (Z.of_nat (length K))) (blen pre) st None st.
Proof.
  exists (lit "ab"), (lit "ba"), [mkSpan 0 (lit "abba") 1 2; mkSpan 0 (lit "abba") 0 1], [lit "b"; lit "a"].
  split; [|split; [exists []; reflexivity|split; reflexivity]].
  constructor; [exists (lit "a"), (lit "ba"); auto|]. constructor; [exists [], (lit "bba"); auto|constructor].
Qed.
Print Assumptions C23_top_to_bottom_refuted.
