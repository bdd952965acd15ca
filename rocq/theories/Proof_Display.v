(** Proofs about the display of expressions. *)
From Coq Require Import String List NArith ZArith Arith Bool Lia ZifyBool ZifyNat ZifyN.
From Verif Require Import Model_Text Model_Message Model_Meta Model_Import Model_Display
  Spec_Unescape Spec_Message Spec_Grammar Spec_Import Spec_Pest2 Spec_Written Spec_Display
  Proof_Text Proof_Unescape Proof_Message Proof_Written2.
Import ListNotations.
Open Scope list_scope.

Lemma hex_char_digit : forall d, (d < 16)%N -> hex_digit (hex_char d) d.
Proof. intros d L. unfold hex_digit, hex_char. destruct (N.ltb_spec d 10); lia. Qed.
Lemma hex_digits_spec : forall k n acc j, (n < 2 ^ N.of_nat k)%N -> k <> 0 -> (n < 16 ^ N.of_nat j)%N -> j <> 0 ->
  exists t, hex_digits k n acc = t ++ acc /\ hex t n /\ length t <= j.
Proof.
  induction k as [|k IH]; intros n acc j L K B J; [congruence|]. cbn [hex_digits].
  assert (D : (n mod 16 < 16)%N) by (apply N.mod_lt; lia). pose proof (hex_char_digit _ D) as H.
  destruct (N.eqb_spec (n / 16) 0) as [E|E].
  - exists [hex_char (n mod 16)]. split; [reflexivity|]. split; [|cbn; lia]. rewrite (N.div_mod n 16) at 2 by lia. rewrite E, N.mul_0_r, N.add_0_l. apply Hex_one, H.
  - rewrite Nat2N.inj_succ, N.pow_succ_r' in L. destruct j as [|j]; [congruence|]. rewrite Nat2N.inj_succ, N.pow_succ_r' in B.
    destruct (IH (n / 16)%N (hex_char (n mod 16) :: acc) j) as (t & Et & Ht & Lt).
    + apply N.div_lt_upper_bound; lia.
    + intros ->. cbn in L. apply E. apply N.div_small. lia.
    + apply N.div_lt_upper_bound; lia.
    + intros ->. cbn in B. apply E. apply N.div_small. lia.
    + exists (t ++ [hex_char (n mod 16)]). rewrite Et, <- app_assoc. split; [reflexivity|]. split; [|rewrite app_length; cbn; lia].
      rewrite (N.div_mod n 16) at 2 by lia. apply Hex_more; assumption.
Qed.
Lemma hexadecimal_spec : forall c, is_scalar c = true -> hex (hexadecimal c) c /\ length (hexadecimal c) <= 6.
Proof.
  intros c S. unfold hexadecimal. destruct (hex_digits_spec (Datatypes.S (N.to_nat (N.log2 c))) c [] 6) as (t & E & H & L).
  - rewrite Nat2N.inj_succ, N2Nat.id. destruct (N.eq_dec c 0) as [->|N]; [reflexivity|]. apply N.log2_spec. lia.
  - discriminate.
  - unfold is_scalar in S. cbn. lia.
  - discriminate.
  - rewrite E, app_nil_r. auto.
Qed.
Section Show.
Variable printable : char -> bool.
Notation show_node := (show_node printable).
Notation show_expr := (show_expr printable).
Notation escape_debug := (escape_debug printable).
Lemma escape_debug_cases : forall q c, q = 34%N \/ q = 39%N -> is_scalar c = true ->
  escape hex (escape_debug q c) c \/ (escape_debug q c = [c] /\ c <> 92%N /\ c <> q).
Proof.
  intros q c Q S. unfold Model_Display.escape_debug.
  destruct (N.eqb_spec c 0) as [->|]; [left; apply E_letter; constructor|].
  destruct (N.eqb_spec c 9) as [->|]; [left; apply E_letter; constructor|].
  destruct (N.eqb_spec c 13) as [->|]; [left; apply E_letter; constructor|].
  destruct (N.eqb_spec c 10) as [->|]; [left; apply E_letter; constructor|].
  destruct (N.eqb_spec c q) as [->|]; [left; apply E_letter; destruct Q as [->| ->]; constructor|].
  destruct (N.eqb_spec c 92) as [->|]; [left; apply E_letter; constructor|].
  destruct (printable c); [right; auto|]. left. destruct (hexadecimal_spec c S). apply E_unicode; assumption.
Qed.
Lemma debug_str_documented : forall s, scalars s -> documented (flat_map (escape_debug 34%N) s) s.
Proof.
  induction 1 as [|c s S F IH]; [constructor|]. cbn [flat_map]. destruct (escape_debug_cases 34%N c (or_introl eq_refl) S) as [E|(E & N & Q)].
  - apply D_escape; assumption.
  - rewrite E. apply D_plain; assumption.
Qed.
Lemma debug_char_written : forall c, is_scalar c = true -> c <> 34%N -> w_char (debug_char printable c) c.
Proof.
  intros c S N. exists (escape_debug 39%N c). split; [reflexivity|]. destruct (escape_debug_cases 39%N c (or_intror eq_refl) S) as [E|(E & N' & Q)].
  - split; [left; exact E|]. inversion E; discriminate.
  - rewrite E. split; [right; auto|congruence].
Qed.

(** The display without places. *)
Fixpoint show_tree (t : tree) : text :=
  match t with
  | T_str s => debug_str printable s
  | T_insens s => lit "^" ++ debug_str printable s
  | T_range a b => debug_char printable a ++ lit ".." ++ debug_char printable b
  | T_name p => show_sep (lit "::") p ++ []
  | T_call p l => show_sep (lit "::") p ++ lit "(" ++ show_sep (lit ", ") (map show_tree l) ++ lit ")"
  | T_slice p x y => show_sep (lit "::") p ++ lit "[" ++ show_range decimal_Z (mkRange x y) ++ lit "]"
  | T_pos a => lit "&" ++ show_tree a
  | T_neg a => lit "!" ++ show_tree a
  | T_seq a b k => lit "(" ++ show_tree a ++ lit " " ++ show_trivia k ++ lit " " ++ show_tree b ++ lit ")"
  | T_choice a b => lit "(" ++ show_tree a ++ lit " | " ++ show_tree b ++ lit ")"
  | T_opt a => show_tree a ++ lit "?"
  | T_rep a => show_tree a ++ lit "*"
  | T_once a => show_tree a ++ lit "+"
  | T_times a x y => show_tree a ++ lit "[" ++ show_range decimal_N (mkRange x y) ++ lit "]"
  | T_sep a k => show_tree a ++ show_trivia k
  end.
Lemma show_node_tree : forall n, show_node n = show_tree (tree_of n).
Proof.
  fix IH 1. intros [e s]. destruct e; cbn [Model_Display.show_node Model_Display.show_expr tree_of tree_expr show_tree]; rewrite ?IH; try reflexivity.
  - destruct args as [[l|[x y]]|]; cbn [Model_Display.show_args tree_args show_tree]; try reflexivity.
    do 3 f_equal. rewrite map_map. f_equal. induction l as [|m l IHl]; [reflexivity|]. cbn [map]. rewrite IH. f_equal. exact IHl.
Qed.

(** Texts of operands with operators after them. *)
Definition operand_form (t : tree) : Prop := exists u c v, w_core u c /\ w_postfixes c v t /\ show_tree t = u ++ v.
Definition reads (t : tree) : Prop := showable t -> (~ predicate t -> operand_form t) /\ w_term (show_tree t) t.
Lemma form_term : forall t, operand_form t -> w_term (show_tree t) t.
Proof. intros t (u & c & v & C & P & ->). eapply W_postfixed; eassumption. Qed.
Lemma core_form : forall t, w_core (show_tree t) t -> operand_form t.
Proof. intros t C. exists (show_tree t), t, []. rewrite app_nil_r. split; [exact C|]. split; [constructor|reflexivity]. Qed.
Lemma form_reads : forall t, (showable t -> operand_form t) -> reads t.
Proof. intros t H S. specialize (H S). split; [auto|apply form_term, H]. Qed.
Lemma core_reads : forall t, (showable t -> w_core (show_tree t) t) -> reads t.
Proof. intros t H. apply form_reads. intro S. apply core_form, H, S. Qed.
Lemma postfixes_app : forall t v t', w_postfixes t v t' -> forall v' t'', w_postfixes t' v' t'' -> w_postfixes t (v ++ v') t''.
Proof.
  induction 1 as [|t w p t1 v t2 B P _ IH|t w o k w' p t1 v t2 B T B' P _ IH]; intros v' t'' H; [exact H| |].
  - rewrite <- !app_assoc. eapply W_post; [exact B|exact P|apply IH, H].
  - rewrite <- !app_assoc. eapply W_separated; [exact B|exact T|exact B'|exact P|apply IH, H].
Qed.
Lemma one_postfix : forall t p t1, w_postfix t p t1 -> w_postfixes t p t1.
Proof. intros t p t1 P. change p with ([] ++ p). rewrite <- (app_nil_r p). eapply W_post; [constructor|exact P|constructor]. Qed.
Lemma one_separated : forall t o k p t1, trivia_op o k -> w_postfix (T_sep t k) p t1 -> w_postfixes t (o ++ p) t1.
Proof.
  intros t o k p t1 O P. change (o ++ p) with ([] ++ o ++ [] ++ p). rewrite <- (app_nil_r p). eapply W_separated; [constructor|exact O|constructor|exact P|constructor].
Qed.
Lemma shown_trivia : forall o k, trivia_op o k -> show_trivia k = o.
Proof. intros o k []; reflexivity. Qed.
Lemma blank_space : blank (lit " ").
Proof. apply Blank_char; [left; reflexivity|constructor]. Qed.
Lemma shown_seq : forall k, seq_op (show_trivia k) k.
Proof. intros []; constructor. Qed.
Lemma postfix_reads : forall t p t1, w_postfix t p t1 -> reads t -> reads t1.
Proof.
  intros t p t1 P H. apply form_reads. intro S.
  assert (X : forall q, showable t /\ ~ predicate t -> w_postfix t q t1 -> show_tree t1 = show_tree t ++ q -> operand_form t1).
  { intros q (St & N) P' E. destruct (H St) as (F & _). destruct (F N) as (u & c & v & C & V & Es).
    exists u, c, (v ++ q). split; [exact C|]. split; [eapply postfixes_app; [exact V|apply one_postfix, P']|]. rewrite E, Es, app_assoc. reflexivity. }
  inversion P; subst; cbn [showable] in S; try contradiction; (eapply X; [exact S|constructor|reflexivity]).
Qed.
Lemma separated_reads : forall t o k p t1, trivia_op o k -> w_postfix (T_sep t k) p t1 -> reads t -> reads t1.
Proof.
  intros t o k p t1 O P H. apply form_reads. intro S.
  assert (X : forall q, (showable t /\ ~ predicate t) /\ ~ predicate (T_sep t k) -> w_postfix (T_sep t k) q t1 -> show_tree t1 = (show_tree t ++ show_trivia k) ++ q -> operand_form t1).
  { intros q ((St & N) & _) P' E. destruct (H St) as (F & _). destruct (F N) as (u & c & v & C & V & Es).
    exists u, c, (v ++ o ++ q). split; [exact C|]. split; [eapply postfixes_app; [exact V|eapply one_separated; eassumption]|]. rewrite E, Es, (shown_trivia o k O), <- !app_assoc. reflexivity. }
  inversion P; subst; cbn [showable] in S; try contradiction; (eapply X; [exact S|constructor|reflexivity]).
Qed.
Lemma postfixes_read : forall t v t', w_postfixes t v t' -> reads t -> reads t'.
Proof.
  induction 1 as [|t w p t1 v t2 B P _ IH|t w o k w' p t1 v t2 B T B' P _ IH]; intro H; [exact H| |]; apply IH.
  - eapply postfix_reads; eassumption.
  - eapply separated_reads; eassumption.
Qed.
Lemma seq_reads : forall a b k, reads a -> reads b -> reads (T_seq a b k).
Proof.
  intros a b k A B. apply core_reads. intros (Sa & Sb). cbn [show_tree].
  replace (lit "(" ++ show_tree a ++ lit " " ++ show_trivia k ++ lit " " ++ show_tree b ++ lit ")")
    with (lit "(" ++ [] ++ (show_tree a ++ lit " " ++ show_trivia k ++ lit " " ++ show_tree b) ++ [] ++ lit ")") by (rewrite <- !app_assoc; reflexivity).
  apply W_parens; [constructor| |constructor]. apply W_plain, W_alternative, W_sequence; [apply A, Sa|apply blank_space|apply shown_seq|apply blank_space|apply W_operand, B, Sb].
Qed.
Lemma choice_reads : forall a b, reads a -> reads b -> reads (T_choice a b).
Proof.
  intros a b A B. apply core_reads. intros (Sa & Sb). cbn [show_tree].
  replace (lit "(" ++ show_tree a ++ lit " | " ++ show_tree b ++ lit ")")
    with (lit "(" ++ [] ++ (show_tree a ++ lit " " ++ lit "|" ++ lit " " ++ show_tree b) ++ [] ++ lit ")") by (rewrite <- !app_assoc; reflexivity).
  apply W_parens; [constructor| |constructor].
  apply W_plain, W_choice; [apply W_operand, A, Sa|apply blank_space|apply blank_space|apply W_alternative, W_operand, B, Sb].
Qed.
Lemma names_read : forall u l, w_names u l -> w_names (show_sep (lit "::") l) l.
Proof.
  induction 1 as [u I|u w w' v l I B B' W IH].
  - cbn [show_sep flat_map]. rewrite app_nil_r. apply W_name, I.
  - destruct l as [|x l]; [inversion W|]. cbn [show_sep flat_map] in *.
    change (u ++ (lit "::" ++ x) ++ flat_map (fun x0 => lit "::" ++ x0) l) with (u ++ [] ++ lit "::" ++ [] ++ x ++ flat_map (fun x0 => lit "::" ++ x0) l).
    apply W_more_names; [exact I|constructor|constructor|exact IH].
Qed.
Lemma integer_read : forall z, integer_text (decimal_Z z) z.
Proof.
  intro z. destruct (decimal_Z_spec z) as [(L & N)|(L & u & -> & N)].
  - rewrite <- (Z2N.id z) at 2 by exact L. apply I_plain, N.
  - rewrite <- (Z.opp_involutive z) at 1. rewrite <- (Z2N.id (- z)) by lia. apply (I_minus u), N.
Qed.
Lemma bound_read : forall o, w_integer (match o with Some z => decimal_Z z | None => [] end) o.
Proof. intros [z|]; constructor. apply integer_read. Qed.
Lemma actuals_read : forall l, Forall (fun t => w_term (show_tree t) t) l -> w_actuals (show_sep (lit ", ") (map show_tree l)) l.
Proof.
  assert (X : forall t, w_term (show_tree t) t -> w_expression (show_tree t) t) by (intros; apply W_plain, W_alternative, W_operand; assumption).
  induction l as [|a l IH]; intro F; [constructor|]. inversion F as [|? ? A F']; subst. specialize (IH F'). destruct l as [|b l].
  - cbn. rewrite app_nil_r. apply W_actual, X, A.
  - cbn [map show_sep flat_map] in *.
    change (show_tree a ++ (lit ", " ++ show_tree b) ++ flat_map (fun x => lit ", " ++ x) (map show_tree l))
      with (show_tree a ++ [] ++ lit "," ++ lit " " ++ show_tree b ++ flat_map (fun x => lit ", " ++ x) (map show_tree l)).
    apply W_actuals; [apply X, A|constructor|apply blank_space|exact IH].
Qed.
Lemma written_reads :
  (forall u t, w_expression u t -> reads t) /\ (forall u t, w_choices u t -> reads t) /\ (forall u t, w_sequence u t -> reads t) /\
  (forall u t, w_term u t -> reads t) /\ (forall u t, w_core u t -> reads t) /\ (forall u l, w_actuals u l -> Forall reads l).
Proof.
  apply written_min; intros; auto using seq_reads, choice_reads.
  - intro S. split; [intro N; exfalso; apply N; eexists; left; reflexivity|]. apply (W_pos []); [constructor|]. apply H1, S.
  - intro S. split; [intro N; exfalso; apply N; eexists; right; reflexivity|]. apply (W_neg []); [constructor|]. apply H1, S.
  - eapply postfixes_read; eassumption.
  - apply core_reads. intro S. apply W_terminal. inversion H; subst; cbn [showable show_tree] in *; try contradiction.
    + apply (W_string (flat_map (escape_debug 34%N) r)), debug_str_documented, S.
    + apply (W_string (flat_map (escape_debug 34%N) s)), debug_str_documented, S.
    + destruct S as (S & Na & Nb). inversion S as [|? ? Sa S']; subst. inversion S'; subst.
      apply (W_range (debug_char printable a) [] []); [apply debug_char_written; assumption|constructor|constructor|apply debug_char_written; assumption].
  - apply core_reads. intros _. cbn [show_tree]. rewrite app_nil_r. eapply W_path, names_read, H.
  - apply core_reads. intro S. cbn [show_tree].
    assert (F : Forall (fun t => w_term (show_tree t) t) l).
    { cbn [showable] in S. clear -H3 S. induction H3 as [|a l A F IH]; [constructor|]. destruct S as (Sa & S). constructor; [apply A, Sa|apply IH, S]. }
    change (lit "(" ++ show_sep (lit ", ") (map show_tree l) ++ lit ")") with ([] ++ lit "(" ++ [] ++ show_sep (lit ", ") (map show_tree l) ++ [] ++ lit ")").
    apply W_call; [eapply names_read, H|constructor|constructor|apply actuals_read, F|constructor].
  - apply core_reads. intros _. cbn [show_tree]. unfold show_range. cbn [r_start r_end].
    replace (lit "[" ++ (match x with Some z => decimal_Z z | None => [] end ++ lit ".." ++ match y with Some z => decimal_Z z | None => [] end) ++ lit "]")
      with ([] ++ lit "[" ++ [] ++ match x with Some z => decimal_Z z | None => [] end ++ [] ++ lit ".." ++ [] ++ match y with Some z => decimal_Z z | None => [] end ++ [] ++ lit "]")
      by (rewrite <- !app_assoc; reflexivity).
    apply W_slice; try exact H7; try exact H8; try apply bound_read; try exact Blank_nil. eapply names_read, H.
Qed.
Lemma shown_written : forall u n, w_expression u (tree_of n) -> showable (tree_of n) -> w_term (show_node n) (tree_of n).
Proof. intros u n W S. rewrite show_node_tree. apply (proj1 written_reads u); assumption. Qed.
End Show.
