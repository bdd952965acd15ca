(** C80: the generator of state machines (generator/src/state_builder.rs). *)
From Coq Require Import String List NArith Arith Bool Lia.
From Verif Require Import Model_Text Model_State Spec_State Proof_State.
Import ListNotations.
Open Scope list_scope.

(** The expression in the test of the repository: [(('a'..'z' | 'A'..'Z') ~ '0'..'9')*]. *)
Definition letter : expr := X_choice (X_range 97%N 122%N) (X_range 65%N 90%N).
Definition cell : expr := X_seq letter (X_range 48%N 57%N).
Definition one (e : expr) (name : text) : option expr := if text_eqb name (lit "a") then Some e else None.
Definition states_of (e : expr) : program :=
  match build (one e) (lit "a") with Ret (Some p) => p | _ => mkProgram 0 [] end.

(** What is built: nothing if there is no such rule; a panic if the expression has other parts than ranges, sequences, choices and
    repetitions; otherwise a program. *)
Theorem C80_build : forall rules name,
  match rules name with
  | None => build rules name = Ret None
  | Some e => (supported e /\ exists p, build rules name = Ret (Some p)) \/ (~ supported e /\ build rules name = Panic)
  end.
Proof.
  intros rules name. unfold build. cbn [next_id b_states b_count push_state app]. destruct (rules name) as [e|]; [|reflexivity].
  match goal with |- context [gen_expr e 0 1 ?b] => destruct (gen_supported e 0 1 b) as [(g & b' & E & U)|(E & U)] end; rewrite E; cbn [obind].
  - left. split; [exact U|]. eexists. reflexivity.
  - right. split; [exact U|reflexivity].
Qed.
Print Assumptions C80_build.
Example C80_build_ex : build (one (X_rep cell)) (lit "b") = Ret None /\
  build (one (X_rep cell)) (lit "a") = Ret (Some (mkProgram 2
    [(0, Code_nothing); (1, Code_fail); (6, Code_byte 97%N 122%N 5 7); (7, Code_byte 65%N 90%N 5 0); (4, Code_goto 6); (5, Code_byte 48%N 57%N 3 0); (3, Code_goto 4); (2, Code_goto 3)])) /\
  build (one (X_seq cell (X_str (lit "x")))) (lit "a") = Panic.
Proof. repeat split. Qed.

(** The functions have different names, and every function that is called is there. *)
Theorem C80_states : forall rules name p, build rules name = Ret (Some p) ->
  NoDup (map fst (p_states p)) /\ In (p_enter p) (map fst (p_states p)) /\
  (forall c t, In c (map snd (p_states p)) ->
     match c with
     | Code_nothing | Code_fail => False
     | Code_goto to => t = to
     | Code_byte _ _ a r | Code_wide _ _ _ a r => t = a \/ t = r
     end -> In t (map fst (p_states p))).
Proof.
  intros rules name p H. destruct (built _ _ _ H) as (e & g & _ & _ & N & T & _ & _ & S & _). split; [exact N|]. split.
  - unfold state_is in S. apply find_some in S. destruct S as (S & _). apply (in_map fst) in S. exact S.
  - intros c t C X. apply (T c t C). destruct c; cbn in *; intuition.
Qed.
Print Assumptions C80_states.
Example C80_states_ex : build (one (X_rep cell)) (lit "a") = Ret (Some (states_of (X_rep cell))) /\ length (p_states (states_of (X_rep cell))) = 8.
Proof. split; reflexivity. Qed.

(** The machine of an expression does what [scans] says, from any place: it returns just if that says so, with what it says. *)
Theorem C80_runs : forall rules name p e input i result m', build rules name = Ret (Some p) -> rules name = Some e -> i <= length input ->
  ((exists k, machine_parse p k (mkMachine input i result) = Ret m') <->
   exists b l, scans e (skipn i input) b l /\ m' = mkMachine input (length input - length l) (result && b)).
Proof.
  intros rules name p e input i result m' B R Li. rewrite (machine_runs _ _ _ _ (mkMachine input i result) m' B R). unfold left. cbn [m_input m_index m_result]. split.
  - intros (b & x & l & E & S & ->). exists b, l. split; [exact S|]. f_equal. apply (f_equal (@length _)) in E. rewrite skipn_length, app_length in E. lia.
  - intros (b & l & S & ->). destruct (scans_rest _ _ _ _ S) as (x & E). exists b, x, l. split; [exact E|]. split; [exact S|].
    f_equal. apply (f_equal (@length _)) in E. rewrite skipn_length, app_length in E. lia.
Qed.
Print Assumptions C80_runs.
(** It never panics. *)
Theorem C80_no_panic : forall rules name p k m, build rules name = Ret (Some p) -> machine_parse p k m <> Panic.
Proof. exact machine_no_panic. Qed.
Print Assumptions C80_no_panic.
(** Two cells, and a third that is not complete: the machine accepts, but has read half of the third. *)
Example C80_runs_ex : machine_parse (states_of (X_rep cell)) 30 (machine_new (lit "a1B2c-")) = Ret (mkMachine (bytes (lit "a1B2c-")) 5 true) /\
  machine_parse (states_of cell) 30 (machine_new (lit "a-")) = Ret (mkMachine (bytes (lit "a-")) 1 false).
Proof. split; reflexivity. Qed.

(** It returns for every input unless an expression that cannot fail is repeated. *)
Theorem C80_ends : forall rules name p e m, build rules name = Ret (Some p) -> rules name = Some e -> ending e ->
  exists k m', machine_parse p k m = Ret m'.
Proof.
  intros rules name p e m B R En. destruct (ending_scans e En (left m)) as (b & l & S). destruct (scans_rest _ _ _ _ S) as (x & E).
  destruct (proj2 (machine_runs _ _ _ _ m (mkMachine (m_input m) (m_index m + length x) (m_result m && b)) B R)) as (k & H).
  - exists b, x, l. auto.
  - exists k. eexists. exact H.
Qed.
Print Assumptions C80_ends.
Example C80_ends_ex : ending (X_rep cell) /\ ~ ending (X_rep (X_rep cell)).
Proof.
  split.
  - constructor; [intro H; inversion H as [|? ? A B| |]; inversion B|]. repeat constructor.
  - intro H. inversion H as [| | |? A B]. apply A. constructor.
Qed.
(** Then it does not, for any input. *)
Theorem C80_forever : forall rules name p c m k, build rules name = Ret (Some p) -> rules name = Some (X_rep c) -> sure c ->
  machine_parse p k m = OutOfFuel.
Proof.
  intros rules name p c m k B R S. destruct (machine_parse p k m) as [m'| |] eqn:E; [|exfalso; exact (machine_no_panic _ _ _ _ _ B E)|reflexivity].
  exfalso. destruct (proj1 (machine_runs _ _ _ _ m m' B R)) as (b & x & l & _ & Sc & _); [exists k; exact E|]. exact (sure_forever c S _ _ _ Sc).
Qed.
Print Assumptions C80_forever.
Example C80_forever_ex : build (one (X_rep (X_rep cell))) (lit "a") = Ret (Some (states_of (X_rep (X_rep cell)))) /\ sure (X_rep cell).
Proof. split; [reflexivity|constructor]. Qed.

(** If the ends of ranges are ASCII characters, and wherever something else may be tried after a failure, that failure is at the
    first character, then the machine is a parser of the expression: the result is whether the expression matches, and after a match
    the index is at its end. *)
Theorem C80_grammar : forall rules name p e s b n, build rules name = Ret (Some p) -> rules name = Some e -> ascii e -> decisive e ->
  (exists k, machine_parse p k (machine_new s) = Ret (mkMachine (bytes s) n b)) ->
  if b then exists t, peg e s (Some t) /\ n = blen s - blen t else peg e s None.
Proof.
  intros rules name p e s b n B R A D (k & H). destruct (proj1 (machine_runs _ _ _ _ _ _ B R) (ex_intro _ k H)) as (b' & x & l & E & S & M).
  unfold left, machine_new in *. cbn [m_index m_input m_result skipn andb Nat.add] in *. injection M as -> ->.
  assert (Q := scans_peg _ _ _ _ S A D s eq_refl). destruct b'; [|exact Q]. destruct Q as (t & -> & P). exists t. split; [exact P|].
  apply (f_equal (@length _)) in E. rewrite app_length in E. 
  assert (Bl : forall u, length (bytes u) = blen u).
  { clear. induction u as [|c u IH]; [reflexivity|]. cbn [bytes flat_map blen]. rewrite app_length. change (flat_map encode_utf8 u) with (bytes u). rewrite IH. f_equal.
    unfold encode_utf8, len_utf8. destruct (c <? 0x80)%N; [reflexivity|]. destruct (c <? 0x800)%N; [reflexivity|]. destruct (c <? 0x10000)%N; reflexivity. }
  rewrite !Bl in E. lia.
Qed.
Print Assumptions C80_grammar.
(** And it returns whenever the expression has a result. *)
Theorem C80_grammar_ends : forall rules name p e s o, build rules name = Ret (Some p) -> rules name = Some e -> ascii e -> decisive e ->
  peg e s o -> exists k n, machine_parse p k (machine_new s) = Ret (mkMachine (bytes s) n (match o with Some _ => true | None => false end)).
Proof.
  intros rules name p e s o B R A D P. assert (S := peg_scans _ _ _ P A D).
  assert (Q : exists l, scans e (bytes s) (match o with Some _ => true | None => false end) l) by (destruct o; [eexists; exact S|exact S]).
  destruct Q as (l & Q). destruct (scans_rest _ _ _ _ Q) as (x & E).
  destruct (proj2 (machine_runs _ _ _ _ (machine_new s) (mkMachine (bytes s) (length x) (match o with Some _ => true | None => false end)) B R)) as (k & H).
  - exists (match o with Some _ => true | None => false end), x, l. auto.
  - exists k, (length x). exact H.
Qed.
Print Assumptions C80_grammar_ends.
(** Letters followed by digits: [('a'..'z' | 'A'..'Z') ~ ('0'..'9')*], repeated. *)
Definition name_expr : expr := X_rep (X_seq letter (X_rep (X_range 48%N 57%N))).
Example C80_grammar_ex : build (one name_expr) (lit "a") = Ret (Some (states_of name_expr)) /\ ascii name_expr /\ decisive name_expr /\
  machine_parse (states_of name_expr) 40 (machine_new (lit "a12B-")) = Ret (mkMachine (bytes (lit "a12B-")) 4 true) /\
  peg name_expr (lit "a12B-") (Some (lit "-")).
Proof.
  split; [reflexivity|]. split; [repeat constructor|]. split.
  - constructor; [apply Pr_seq; [apply Pr_choice; apply Pr_range|constructor]|].
    constructor; [constructor; [apply Pr_range| |]; constructor|]. constructor; [apply Pr_range|constructor].
  - split; [reflexivity|].
    vm_compute lit. unfold name_expr, letter.
    eapply P_again; [eapply P_seq; [apply P_first, P_range; lia|eapply P_again; [apply P_range; lia|]; eapply P_again; [apply P_range; lia|]; apply P_stop, P_other; lia]|].
    eapply P_again; [eapply P_seq; [apply P_second; [apply P_other; lia|apply P_range; lia]|apply P_stop, P_other; lia]|].
    apply P_stop, P_seq_fail, P_second; apply P_other; lia.
Qed.

(** Not so in general. What was read is not given back for the second alternative of a choice. *)
Theorem C80_choice_refuted :
  ~ (forall rules name p e s, build rules name = Ret (Some p) -> rules name = Some e -> ascii e -> forall t, peg e s (Some t) ->
     exists k n, machine_parse p k (machine_new s) = Ret (mkMachine (bytes s) n true)).
Proof.
  intro H. pose (e := X_choice (X_seq (X_range 97%N 97%N) (X_range 98%N 98%N)) (X_seq (X_range 97%N 97%N) (X_range 99%N 99%N))).
  destruct (H (one e) (lit "a") (states_of e) e (lit "ac") eq_refl eq_refl ltac:(repeat constructor) []) as (k & n & X).
  - vm_compute lit. apply P_second; [eapply P_seq; [apply P_range; lia|apply P_other; lia]|eapply P_seq; apply P_range; lia].
  - destruct (proj1 (machine_runs (one e) (lit "a") _ _ _ _ eq_refl eq_refl) (ex_intro _ k X)) as (b & x & l & _ & S & M). injection M as _ <-.
    unfold left in S. cbn [machine_new m_index m_input skipn] in S. vm_compute bytes in S.
    assert (F : exists m, machine_parse (states_of e) 20 (machine_new (lit "ac")) = Ret m /\ m_result m = false) by (eexists; split; reflexivity).
    destruct F as (m & F & Fr). destruct (proj1 (machine_runs (one e) (lit "a") _ _ _ _ eq_refl eq_refl) (ex_intro _ 20 F)) as (b' & x' & l' & _ & S' & ->).
    cbn in Fr. subst b'. clear - S S'. unfold left in S'. cbn [machine_new m_index m_input skipn] in S'. vm_compute bytes in S'.
    assert (Z := scans_det _ _ _ _ S _ _ S'). destruct Z as (Z & _). discriminate Z.
Qed.
Print Assumptions C80_choice_refuted.

(** Nor after a repetition: it accepts the text of the example above, but the index is not at the end of the match. *)
Theorem C80_repetition_refuted :
  ~ (forall rules name p e s n, build rules name = Ret (Some p) -> rules name = Some e -> ascii e ->
     (exists k, machine_parse p k (machine_new s) = Ret (mkMachine (bytes s) n true)) -> exists t, peg e s (Some t) /\ n = blen s - blen t).
Proof.
  intro H. destruct (H (one (X_rep cell)) (lit "a") (states_of (X_rep cell)) (X_rep cell) (lit "c-") 1 eq_refl eq_refl ltac:(repeat constructor)) as (t & P & E).
  - exists 20. reflexivity.
  - assert (Q : peg (X_rep cell) (lit "c-") (Some (lit "c-"))).
    { apply P_stop. eapply P_seq; [apply P_first, P_range; cbn; lia|apply P_other; cbn; lia]. }
    assert (Z := peg_det _ _ _ P _ Q). injection Z as ->. discriminate E.
Qed.
Print Assumptions C80_repetition_refuted.

(** A range with an end that is not ASCII takes none of the characters, whatever they are. *)
Theorem C80_wide : forall lo hi c : char, (0x80 <= lo \/ 0x80 <= hi)%N -> is_scalar hi = true -> ~ takes lo hi (bytes [c]).
Proof.
  intros lo hi c W V. apply wide_none; [lia|]. unfold is_scalar in V. apply orb_true_iff in V. destruct V as [V|V]; [apply N.ltb_lt in V; lia|].
  apply andb_true_iff in V. destruct V as (_ & V). apply N.leb_le in V. exact V.
Qed.
Print Assumptions C80_wide.
(** The letters from U+430 to U+44F. *)
Example C80_wide_ex : (0x80 <= 0x430 \/ 0x80 <= 0x44F)%N /\ is_scalar 0x44F%N = true /\
  machine_parse (states_of (X_range 0x430%N 0x44F%N)) 9 (machine_new [0x431%N]) = Ret (mkMachine (bytes [0x431%N]) 0 false).
Proof. split; [left; lia|]. split; reflexivity. Qed.
(** So it is false that ranges are those of characters; and it takes other texts, such as a letter and a control character. *)
Theorem C80_range_refuted :
  ~ (forall lo hi c : char, (lo <= c <= hi)%N -> is_scalar c = true -> is_scalar hi = true -> takes lo hi (bytes [c])) /\
  (exists (lo hi : char) (s : text), is_scalar lo = true /\ is_scalar hi = true /\ length s = 2 /\ takes lo hi (bytes s)).
Proof.
  split.
  - intro H. apply (C80_wide 0x430%N 0x44F%N 0x431%N); [left; lia|reflexivity|]. apply H; [lia|reflexivity|reflexivity].
  - exists 0x430%N, 0x44F%N, [0x31%N; 0x04%N]. repeat split. right. split; [lia|]. split; [reflexivity|]. exists 0x431%N. rewrite number_le. split; [reflexivity|lia].
Qed.
Print Assumptions C80_range_refuted.
