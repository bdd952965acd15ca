(** The emitted types read as nodes that compile the expressions they were made from. *)
From Coq Require Import String List NArith ZArith Arith Bool Lia.
From Verif Require Import Model_Text Model_Message Model_Meta Model_Import Model_Tracker Model_Node Model_Generator Model_Output
  Spec_Text Spec_Peg Spec_Grammar_Peg Spec_Occur Spec_Generator Spec_Rust Proof_Text Proof_Emit Proof_Box Proof_Process Proof_Names
  Proof_Place Proof_Resolve Proof_Accept Proof_Compile Proof_Leaf.
Import ListNotations.
Open Scope list_scope.

(** * Reading types *)
Section Reading.
Variable items : list (text * ritem).
Variable unicode : list text.
Variable id : list text -> text -> rule.
Notation read := (read_type items unicode id).

Definition read_arg (k : nat) (m : list text) (params : list (text * node)) (a : garg) : option argument :=
  match a with
  | A_life => Some Arg_life
  | A_type t => match read k m params t with Some d => Some (Arg d) | None => None end
  | A_char c => Some (Arg_char c)
  | A_usize n => Some (Arg_usize n)
  | A_isize z => Some (Arg_isize z)
  end.
Definition as_node (o : option node) : option meaning := match o with Some n => Some (M_node n) | None => None end.
Definition read_target (k : nat) (o : option target) (dargs : list argument) : option meaning :=
  match o with
  | Some (T_library p) => as_node (library unicode p dargs)
  | Some (T_item m' (R_struct s)) =>
      match dargs with
      | Arg_life :: targs =>
          match nodes targs with
          | Some ns => if length ns =? length (gs_params s) then Some (M_node (Rule (id m' (gs_name s)) ns)) else None
          | None => None
          end
      | _ => None
      end
  | Some (T_item m' (R_alias t')) => match dargs with [Arg_life] => read k m' [] t' | _ => None end
  | Some (T_item _ (R_string s)) => match dargs with [] => Some (M_text s) | _ => None end
  | Some (T_item _ (R_seq n)) => as_node (sequence_node n dargs)
  | Some (T_item _ (R_choice n)) => as_node (choice_node n dargs)
  | _ => None
  end.
Lemma read_eq : forall k m params path args, read (S k) m params (Ty path args) =
  match path with
  | [] => None
  | h :: r =>
      match lookup h params with
      | Some n => match r, args with [], [] => Some (M_node n) | _, _ => None end
      | None =>
          match all_some (map (read_arg k m params) args) with
          | None => None
          | Some dargs => read_target k (resolve items m path) dargs
          end
      end
  end.
Proof. reflexivity. Qed.

Lemma read_target_more : forall k k' o dargs d, (forall m t d, read k m [] t = Some d -> read k' m [] t = Some d) ->
  read_target k o dargs = Some d -> read_target k' o dargs = Some d.
Proof.
  intros k k' o dargs d H R. destruct o as [[m i|p]|]; try discriminate; [|exact R]. destruct i; try discriminate; try exact R.
  cbn [read_target] in *. destruct dargs as [|[] [|? ?]]; try discriminate. apply H, R.
Qed.
Lemma all_some_more : forall {A B : Type} (f f' : A -> option B) l r, (forall a b, f a = Some b -> f' a = Some b) ->
  all_some (map f l) = Some r -> all_some (map f' l) = Some r.
Proof.
  intros A B f f' l. induction l as [|a l IH]; intros r H E; [exact E|]. cbn [map all_some] in *.
  destruct (f a) as [b|] eqn:Q; [|discriminate]. rewrite (H _ _ Q). destruct (all_some (map f l)) as [r'|]; [|discriminate].
  rewrite (IH r' H eq_refl). exact E.
Qed.
Lemma read_more : forall k k' m params t d, k <= k' -> read k m params t = Some d -> read k' m params t = Some d.
Proof.
  induction k as [|k IH]; intros k' m params t d L R; [discriminate|]. destruct k' as [|k']; [lia|]. destruct t as [path args].
  rewrite read_eq in R |- *. destruct path as [|h r]; [discriminate|]. destruct (lookup h params); [exact R|].
  destruct (all_some (map (read_arg k m params) args)) as [dargs|] eqn:E; [|discriminate].
  rewrite (all_some_more _ (read_arg k' m params) _ dargs) with (2 := E).
  - eapply read_target_more; [|exact R]. intros; eapply IH; [lia|eassumption].
  - intros [|t| | |] b Q; try exact Q. cbn [read_arg] in *. destruct (read k m params t) as [d'|] eqn:Q'; [|discriminate].
    rewrite (IH k' _ _ _ _ ltac:(lia) Q'). exact Q.
Qed.
Lemma read_unique : forall k k' m params t d d', read k m params t = Some d -> read k' m params t = Some d' -> d = d'.
Proof.
  intros k k' m params t d d' R R'. apply (read_more k (k + k')) in R; [|lia]. apply (read_more k' (k + k')) in R'; [|lia]. congruence.
Qed.
Lemma read_step : forall k m params h r args dargs, lookup h params = None ->
  all_some (map (read_arg k m params) args) = Some dargs ->
  read (S k) m params (Ty (h :: r) args) = read_target k (resolve items m (h :: r)) dargs.
Proof. intros k m params h r args dargs L A. rewrite read_eq, L, A. reflexivity. Qed.

(** Lists of types. *)
Lemma types_read : forall k m params ts ns, Forall2 (fun t n => read k m params t = Some (M_node n)) ts ns ->
  all_some (map (read_arg k m params) (map A_type ts)) = Some (map (fun n => Arg (M_node n)) ns).
Proof.
  intros k m params ts ns F. induction F as [|t n ts ns H F IH]; [reflexivity|]. cbn [map all_some read_arg]. rewrite H, IH. reflexivity.
Qed.
Lemma nodes_read : forall ns, nodes (map (fun n => Arg (M_node n)) ns) = Some ns.
Proof. induction ns as [|n ns IH]; [reflexivity|]. cbn [map nodes]. rewrite IH. reflexivity. Qed.
Lemma pairs_read : forall fs, node_pairs (flat_map (fun f => [Arg (M_node (fst f)); Arg (M_node (snd f))]) fs) = Some fs.
Proof. induction fs as [|(n, t) fs IH]; [reflexivity|]. cbn [flat_map app node_pairs fst snd]. rewrite IH. reflexivity. Qed.
End Reading.

(** * The library *)
Lemma library_template : forall unicode k f args, entry k template = Some f -> library unicode (template_path k) args = f args.
Proof. intros unicode k f args E. unfold library, template_path. cbn [andb]. change (text_eqb pest_crate pest_crate && text_eqb (lit "typed") (lit "typed")) with true.
  change (text_eqb (lit "template") (lit "template")) with true. cbv iota. rewrite E. reflexivity. Qed.
Lemma library_option : forall unicode args, library unicode [pest_crate; lit "std"; lit "Option"] args = with_type Opt args.
Proof. reflexivity. Qed.
Lemma library_sequence : forall unicode n args, 2 <= n <= 16 ->
  library unicode [pest_crate; lit "sequence"; lit "Sequence" ++ decimal n] args = sequence_node n args.
Proof.
  intros unicode n args L. unfold library. change (text_eqb pest_crate pest_crate) with true. change (text_eqb (lit "sequence") (lit "std")) with false.
  change (text_eqb (lit "sequence") (lit "sequence")) with true. cbv iota. rewrite of_arity_self; [reflexivity|]. apply in_seq. lia.
Qed.
Lemma library_choice : forall unicode n args, 2 <= n <= 16 ->
  library unicode [pest_crate; lit "choice"; lit "Choice" ++ decimal n] args = choice_node n args.
Proof.
  intros unicode n args L. unfold library. change (text_eqb pest_crate pest_crate) with true. change (text_eqb (lit "choice") (lit "std")) with false.
  change (text_eqb (lit "choice") (lit "sequence")) with false. change (text_eqb (lit "choice") (lit "choice")) with true.
  cbv iota. rewrite of_arity_self; [reflexivity|]. apply in_seq. lia.
Qed.
Lemma index_of_spec : forall l k, In k l -> exists i, index_of k l = Some i /\ nth_error l i = Some k.
Proof.
  induction l as [|x l IH]; intros k I; [destruct I|]. cbn [index_of]. destruct (teqb k x) as [->|N]; [exists 0; split; reflexivity|].
  destruct I as [->|I]; [congruence|]. destruct (IH k I) as (i & E & Q). rewrite E. exists (S i). split; [reflexivity|exact Q].
Qed.
Lemma uppercase_capital : forall s, uppercase s = map capital s.
Proof.
  intro s. apply map_ext. intro c. unfold capital.
  destruct ((97 <=? c) && (c <=? 122))%N eqn:E1, ((96 <? c) && (c <? 123))%N eqn:E2; try reflexivity;
    rewrite ?andb_true_iff, ?andb_false_iff, ?N.leb_le, ?N.leb_gt, ?N.ltb_lt, ?N.ltb_ge in *; lia.
Qed.
Lemma library_property : forall unicode u, distinct_properties unicode -> In u unicode ->
  exists i, nth_error unicode i = Some u /\
    library unicode [pest_crate; lit "typed"; lit "unicode"; uppercase u] [] = Some (Property (N.of_nat i)).
Proof.
  intros unicode u D I. destruct (index_of_spec (map uppercase unicode) (uppercase u) (in_map _ _ _ I)) as (i & E & Q).
  exists i. split.
  - rewrite nth_error_map in Q. destruct (nth_error unicode i) as [v|] eqn:V; [|discriminate]. cbn in Q. injection Q as Q.
    apply uppercase_folded in Q. apply In_nth_error in I. destruct I as (j & J).
    assert (i = j) as <-; [|congruence]. eapply property_unique; [exact D|exists v; split; [exact V|exact Q]|exists u; split; [exact J|reflexivity]].
  - unfold library. change (text_eqb pest_crate pest_crate && text_eqb (lit "typed") (lit "typed")) with true.
    change (text_eqb (lit "unicode") (lit "template")) with false. change (text_eqb (lit "unicode") (lit "unicode")) with true. cbv iota.
    rewrite <- (map_ext _ _ uppercase_capital), E. reflexivity.
Qed.

(** The types of the built-in rules. *)
Lemma plain_template : forall x, In x plain_names -> In x template_names.
Proof.
  intros x I. assert (A : forallb (fun x => text_in x template_names) plain_names = true) by (vm_compute; reflexivity).
  rewrite forallb_forall in A. specialize (A x I). destruct (text_in_spec x template_names); [assumption|discriminate].
Qed.
Lemma plain_alone : forall property env unicode x, In x plain_names ->
  In x template_names /\ exists n, entry x template = Some (plain n) /\ alone_node property env unicode [x] n.
Proof.
  intros property env unicode x I. split; [apply plain_template, I|]. unfold plain_names in I. cbn [map In] in I.
  decompose [or] I; subst; try contradiction.
  - exists Soi. split; [reflexivity|constructor].
  - exists Eoi. split; [reflexivity|constructor].
  - exists Any. split; [reflexivity|]. eapply AN_class; [constructor|repeat split; reflexivity|apply Leaf_flat; reflexivity|apply chars_any|]. intro c. split; auto.
  - exists ascii_digit. split; [reflexivity|]. eapply AN_class; [constructor|repeat split; reflexivity|apply Leaf_flat; reflexivity|apply chars_range|]. intro c. apply within_spec.
  - exists ascii_nonzero_digit. split; [reflexivity|]. eapply AN_class; [constructor|repeat split; reflexivity|apply Leaf_flat; reflexivity|apply chars_range|]. intro c. apply within_spec.
  - exists ascii_bin_digit. split; [reflexivity|]. eapply AN_class; [constructor|repeat split; reflexivity|apply Leaf_flat; reflexivity|apply chars_range|]. intro c. apply within_spec.
  - exists ascii_oct_digit. split; [reflexivity|]. eapply AN_class; [constructor|repeat split; reflexivity|apply Leaf_flat; reflexivity|apply chars_range|]. intro c. apply within_spec.
  - exists ascii_hex_digit. split; [reflexivity|]. eapply AN_class; [constructor|repeat split; reflexivity| |apply chars_hex|].
    + apply Leaf_choice. repeat (apply Forall_cons; [apply Leaf_flat; reflexivity|]). apply Forall_nil.
    + intro c. cbn [existsb snd]. rewrite !orb_true_iff, !within_spec. intuition discriminate.
  - exists ascii_alpha_lower. split; [reflexivity|]. eapply AN_class; [constructor|repeat split; reflexivity|apply Leaf_flat; reflexivity|apply chars_range|]. intro c. apply within_spec.
  - exists ascii_alpha_upper. split; [reflexivity|]. eapply AN_class; [constructor|repeat split; reflexivity|apply Leaf_flat; reflexivity|apply chars_range|]. intro c. apply within_spec.
  - exists ascii_alpha. split; [reflexivity|]. eapply AN_class; [constructor|repeat split; reflexivity| |apply chars_alpha|].
    + apply Leaf_choice. repeat (apply Forall_cons; [apply Leaf_flat; reflexivity|]). apply Forall_nil.
    + intro c. cbn [existsb snd]. rewrite !orb_true_iff, !within_spec. intuition discriminate.
  - exists ascii_alphanumeric. split; [reflexivity|]. eapply AN_class; [constructor|repeat split; reflexivity| |apply chars_alphanumeric|].
    + apply Leaf_choice. apply Forall_cons; [|apply Forall_cons; [apply Leaf_flat; reflexivity|apply Forall_nil]].
      apply Leaf_choice. repeat (apply Forall_cons; [apply Leaf_flat; reflexivity|]). apply Forall_nil.
    + intro c. cbn [existsb snd]. rewrite !orb_true_iff, !within_spec. intuition discriminate.
  - exists ascii. split; [reflexivity|]. eapply AN_class; [constructor|repeat split; reflexivity|apply Leaf_flat; reflexivity|apply chars_range|]. intro c. apply within_spec.
  - exists Newline. split; [reflexivity|constructor].
Qed.
Lemma life_alone : forall property env unicode x, In x (map lit ["peek_all"; "pop"; "pop_all"]%string) ->
  In x template_names /\ exists n, entry x template = Some (with_life n) /\ alone_node property env unicode [lit "stack"; x] n.
Proof.
  intros property env unicode x I. cbn [map In] in I.
  decompose [or] I; subst; try contradiction; (split; [apply (in_map lit); cbn [In]; tauto|]); eexists; (split; [reflexivity|constructor]).
Qed.

(** * Flattening *)
Lemma flatten_in_turn : forall unicode id place leaf_ok g rho,
  forall e t fs, Forall2 (fun te f => compiles unicode id place leaf_ok g rho (snd te) (fst f) /\
                   triv unicode id place leaf_ok g (fst te) (snd f)) (sequence_rest t e) fs ->
  in_turn unicode id place leaf_ok g rho [It_trivia t; It_expr e] (flat_map (fun f => [snd f; fst f]) fs).
Proof.
  intros unicode id place leaf_ok g rho. fix Fx 1. intros e t fs F.
  assert (Plain : Forall2 (fun te f => compiles unicode id place leaf_ok g rho (snd te) (fst f) /\
                   triv unicode id place leaf_ok g (fst te) (snd f)) [(t, e)] fs ->
    in_turn unicode id place leaf_ok g rho [It_trivia t; It_expr e] (flat_map (fun f => [snd f; fst f]) fs)).
  { clear F. intro F. inversion F as [|te f l fs' (C & Tr) F' E1 E2]; subst. inversion F'; subst. cbn [flat_map app].
    apply Turn_trivia; [exact Tr|]. apply Turn_expr; [exact C|constructor]. }
  destruct e as [s|s|a b|path args|n|n|[l ls] [r rs] t'|l r|n|n|n|n range|n t']; try (apply Plain; exact F).
  clear Plain. cbn [sequence_rest] in F. inversion F as [|te f l0 fs' (C & Tr) F' E1 E2]; subst. cbn [flat_map app fst snd] in *.
  apply Turn_trivia; [exact Tr|]. apply Turn_flat. apply Turn_expr; [exact C|]. apply (Fx r t' fs' F').
Qed.
Lemma flatten_one_of : forall unicode id place leaf_ok g rho,
  forall e ns, Forall2 (fun e n => compiles unicode id place leaf_ok g rho e n) (choices_rest e) ns ->
  one_of unicode id place leaf_ok g rho e ns.
Proof.
  intros unicode id place leaf_ok g rho. fix Fx 1. intros e ns F.
  assert (Plain : Forall2 (fun e n => compiles unicode id place leaf_ok g rho e n) [e] ns -> one_of unicode id place leaf_ok g rho e ns).
  { clear F. intro F. inversion F as [|te f l fs' C F' E1 E2]; subst. inversion F'; subst. apply One_last, C. }
  destruct e as [s|s|a b|path args|n|n|l r t'|[l ls] [r rs]|n|n|n|n range|n t']; try (apply Plain; exact F).
  clear Plain. cbn [choices_rest] in F. inversion F as [|te f l0 fs' C F' E1 E2]; subst.
  apply One_flat; [exact C|]. apply (Fx r fs' F').
Qed.
Lemma sequence_asks : forall e t te, In te (sequence_rest t e) -> (fst te = t \/ asks e (fst te)) /\ forall u, asks (snd te) u -> asks e u.
Proof.
  fix Fx 1. intros e t te I.
  assert (Plain : In te [(t, e)] -> (fst te = t \/ asks e (fst te)) /\ forall u, asks (snd te) u -> asks e u).
  { intros [<-|[]]. split; [left; reflexivity|intros u H; exact H]. }
  destruct e as [s|s|a b|path args|n|n|[l ls] [r rs] t'|l r|n|n|n|n range|n t']; try (apply Plain; exact I).
  clear Plain. cbn [sequence_rest] in I. destruct I as [<-|I].
  - split; [left; reflexivity|]. cbn [snd]. intros u H. eapply asks_operand; [|exact H]. apply (Op_seq_l (mkNode l ls)).
  - destruct (Fx r t' te I) as (A & B). split.
    + right. destruct A as [->|A]; [left; do 2 eexists; apply Part_self|]. eapply asks_operand; [|exact A]. apply (Op_seq_r _ (mkNode r rs)).
    + intros u H. eapply asks_operand; [apply (Op_seq_r _ (mkNode r rs))|]. apply B, H.
Qed.
Lemma choices_asks : forall e e', In e' (choices_rest e) -> forall u, asks e' u -> asks e u.
Proof.
  fix Fx 1. intros e e' I.
  assert (Plain : In e' [e] -> forall u, asks e' u -> asks e u).
  { intros [<-|[]]. intros u H; exact H. }
  destruct e as [s|s|a b|path args|n|n|l r t'|[l ls] [r rs]|n|n|n|n range|n t']; try (apply Plain; exact I).
  clear Plain. cbn [choices_rest] in I. destruct I as [<-|I].
  - intros u H. eapply asks_operand; [|exact H]. apply (Op_choice_l (mkNode l ls)).
  - intros u H. eapply asks_operand; [apply (Op_choice_r _ (mkNode r rs))|]. apply (Fx r e' I), H.
Qed.

(** * Reading what was made *)
Lemma lookup_assoc : forall {A : Type} k (l : list (text * A)) v, lookup k l = Some v -> assoc k l v.
Proof.
  intros A k l v. induction l as [|(k', v') l IH]; intro H; [discriminate|]. cbn [lookup] in H.
  destruct (teqb k k') as [->|N]; [injection H as ->; constructor|]. apply As_there; [exact N|apply IH, H].
Qed.
Lemma assoc_in : forall {A : Type} k (l : list (text * A)) v, assoc k l v -> In (k, v) l.
Proof. intros A k l v H. induction H; [left; reflexivity|right; assumption]. Qed.
Lemma in_combine_key : forall {A : Type} (l : list text) (l' : list A) x v, In (x, v) (combine l l') -> In x l.
Proof. intros A l l' x v H. eapply in_combine_l, H. Qed.
Lemma lookup_combine_in : forall (P : closure -> node -> Prop) params cs ns, Forall2 P cs ns -> length cs = length params -> forall x, In x params ->
  exists c n, assoc x (combine params cs) c /\ lookup x (combine params ns) = Some n /\ P c n.
Proof.
  intros P params cs ns F. revert params. induction F as [|c n cs ns H F IH]; intros [|p params] L x I; try discriminate; [destruct I|].
  cbn [combine lookup]. destruct (teqb x p) as [->|N]; [exists c, n; split; [constructor|split; [reflexivity|exact H]]|].
  destruct I as [->|I]; [congruence|]. cbn in L. destruct (IH params ltac:(lia) x I) as (c' & n' & A & E & Q).
  exists c', n'. split; [apply As_there; assumption|split; assumption].
Qed.
Lemma root_head : forall depth, exists r, root_of depth = lit "super" :: r.
Proof. intros [|depth]; eexists; reflexivity. Qed.
Lemma forall2_length : forall {A B : Type} (P : A -> B -> Prop) l l', Forall2 P l l' -> length l = length l'.
Proof. intros A B P l l' F. induction F; cbn [length]; congruence. Qed.
Lemma forall2_and : forall {A B : Type} (P Q : A -> B -> Prop) l l', Forall2 P l l' -> Forall2 Q l l' -> Forall2 (fun a b => P a b /\ Q a b) l l'.
Proof. intros A B P Q l l' F. induction F; intro G; inversion G; subst; constructor; auto. Qed.
Lemma last_rule_exists : forall g name r, In r (g_rules g) -> pr_name r = name -> exists r', last_rule g name r'.
Proof.
  intros g name r I N. unfold last_rule. induction (g_rules g) as [|x l IH]; [destruct I|].
  destruct (Exists_dec (fun r => pr_name r = name) l) as [X|X].
  { intro y. destruct (teqb (pr_name y) name); [left|right]; assumption. }
  - apply Exists_exists in X. destruct X as (y & J & E).
    assert (Y : In r l \/ exists y, In y l /\ pr_name y = name) by (right; exists y; split; assumption).
    clear I. assert (exists r' a b, l = a ++ r' :: b /\ pr_name r' = name /\ forall r'', In r'' b -> pr_name r'' <> name) as (r' & a & b & El & En & Nb).
    { clear - J E. revert y J E. induction l as [|z l IH]; intros y J E; [destruct J|].
      destruct (Exists_dec (fun r => pr_name r = name) l) as [X|X].
      { intro w. destruct (teqb (pr_name w) name); [left|right]; assumption. }
      - apply Exists_exists in X. destruct X as (w & K & Ew). destruct (IH w K Ew) as (r' & a & b & El & En & Nb).
        exists r', (z :: a), b. rewrite El. split; [reflexivity|split; assumption].
      - exists z, [], l. split; [reflexivity|]. split.
        + destruct J as [->|J]; [exact E|]. exfalso. apply X, Exists_exists. exists y. split; assumption.
        + intros r'' K Ek. apply X, Exists_exists. exists r''. split; assumption. }
    exists r', (x :: a), b. rewrite El. split; [reflexivity|split; assumption].
  - exists x, [], l. split; [reflexivity|]. split.
    + destruct I as [->|I]; [exact N|]. exfalso. apply X, Exists_exists. exists r. split; assumption.
    + intros r' J E. apply X, Exists_exists. exists r'. split; assumption.
Qed.

Section Read.
Variable config : gconfig.
Variable fuel : nat.
Variable unicode : list text.
Variable T : gtracker.
Variable top : gmodule.
Variable o_top : output.
Variable property : N -> char -> bool.
Variable env : rule -> rule_def.
Variable id : list text -> text -> rule.
Variable leaf_ok : gmodule -> list (text * closure) -> parse_expr -> node -> Prop.
Notation rm := (rules_mod config).
Notation tm := (types_mod rm).
Notation items := (all_items config T o_top).
Hypothesis Types : fine_types_mod tm top.
Hypothesis Props : distinct_properties unicode.
Hypothesis Track : good_tracker T.
Hypothesis Leaf : forall g rho e n, leaf n -> unsliced n = true \/ (exists p range, e = PPath p (Some (PSlice range))) ->
  unplaced n = true \/ (exists p args, e = PPath p args /\ names unicode g p (E_builtin [lit "soi"])) ->
  leaf_expr unicode g rho e /\ misused unicode g e n ->
  (forall pre post K r, gpeg unicode property g rho e pre post K r <-> peg env property n pre post K r) -> leaf_ok g rho e n.
Notation emitted := (emitted config fuel unicode T top o_top).
Notation read := (read_type items unicode id).
Notation compiles := (compiles unicode id (located tm top) leaf_ok).
Notation core := (core unicode id (located tm top) leaf_ok).
Notation triv := (triv unicode id (located tm top) leaf_ok).
Notation arguments := (arguments unicode id (located tm top) leaf_ok).
Notation all_compile := (all_compile unicode id (located tm top) leaf_ok).

(** Values for parameters that do not hide anything. *)
Definition open_keys (vals : list (text * node)) : Prop := forall x, In x (map fst vals) -> ~ In x reserved.
Lemma open_lookup : forall vals x, open_keys vals -> In x reserved -> lookup x vals = None.
Proof. intros vals x O I. apply lookup_none. intro J. exact (O x J I). Qed.
Lemma reserved_in : forall s, In s ["super"; "self"; "Self"; "crate"; "_"; "::pest3"; "__OptionalTrivia"; "__MandatoryTrivia"]%string -> In (lit s) reserved.
Proof. intros s I. unfold reserved. apply in_map, I. Qed.

(** A trivia type can be read. *)
Definition ready (mp : list text) (g : gmodule) (t : trivia) : Prop :=
  exists k n, triv g t n /\ forall vals, open_keys vals -> read k mp vals (embed_trivia t) = Some (M_node n).
Lemma none_ready : forall mp g, ready mp g TriviaNone.
Proof.
  intros mp g. exists 1, Empty. split; [constructor|]. intros vals O. cbn [embed_trivia].
  rewrite (read_step items unicode id 0 mp vals _ _ [] []); [reflexivity| |reflexivity].
  apply open_lookup; [exact O|]. apply reserved_in. cbn [In]. tauto.
Qed.

(** Types of the library. *)
Lemma read_generic : forall k mp depth vals name args dargs f, open_keys vals -> length mp = S (2 * depth) ->
  In name template_names -> entry name template = Some f ->
  all_some (map (read_arg items unicode id k mp vals) args) = Some dargs ->
  read (S k) mp vals (generic (root_of depth) name args) = as_node (f dargs).
Proof.
  intros k mp depth vals name args dargs f O L I E A. unfold generic. destruct (root_head depth) as (r & R).
  assert (Rs := resolve_template config T top o_top Types depth mp name L I). rewrite R in *. cbn [app] in *.
  rewrite (read_step items unicode id k mp vals _ _ args dargs); [|apply open_lookup; [exact O|apply reserved_in; cbn [In]; tauto]|exact A].
  rewrite Rs. cbn [read_target]. rewrite (library_template unicode name f dargs E). reflexivity.
Qed.
Lemma read_wrapper : forall k mp depth vals w s, open_keys vals -> length mp = S (2 * depth) -> In (w, s) (gt_wrappers T) ->
  read (S k) mp vals (Ty (root_of depth ++ [wrapper_mod; w]) []) = Some (M_text s).
Proof.
  intros k mp depth vals w s O L I. destruct (root_head depth) as (r & R).
  assert (Rs := resolve_wrapper config T top o_top Types Track depth mp w s L I). rewrite R in *. cbn [app] in *.
  rewrite (read_step items unicode id k mp vals _ _ [] []); [|apply open_lookup; [exact O|apply reserved_in; cbn [In]; tauto]|reflexivity].
  rewrite Rs. reflexivity.
Qed.
Lemma read_sequence : forall k mp depth vals args fs, open_keys vals -> length mp = S (2 * depth) -> In (length fs) (gt_seqs T) ->
  all_some (map (read_arg items unicode id k mp vals) args) = Some (flat_map (fun f => [Arg (M_node (fst f)); Arg (M_node (snd f))]) fs) ->
  read (S k) mp vals (generic (root_of depth) (lit "Sequence" ++ decimal (length fs)) args) = Some (M_node (Seq fs)).
Proof.
  intros k mp depth vals args fs O L I A. unfold generic. destruct (root_head depth) as (r & R).
  assert (Rs := resolve_generic config T top o_top Types depth mp (lit "Sequence" ++ decimal (length fs)) L).
  rewrite (entry_sequence T (length fs) (proj1 Track) I) in Rs.
  assert (L2 : 2 <= length fs) by (apply (proj2 Track); left; exact I).
  rewrite R in *. change ((lit "super" :: r) ++ [generics_mod; lit "Sequence" ++ decimal (length fs)]) with (lit "super" :: (r ++ [generics_mod; lit "Sequence" ++ decimal (length fs)])) in *.
  erewrite (read_step items unicode id k mp vals _ _ args); [|apply open_lookup; [exact O|apply reserved_in; cbn [In]; tauto]|exact A].
  assert (Sn : sequence_node (length fs) (flat_map (fun f => [Arg (M_node (fst f)); Arg (M_node (snd f))]) fs) = Some (Seq fs)).
  { unfold sequence_node. rewrite pairs_read, Nat.eqb_refl. reflexivity. }
  rewrite Rs. destruct (16 <? length fs) eqn:Q.
  - cbn [read_target]. rewrite Sn. reflexivity.
  - apply Nat.ltb_ge in Q. cbn [read_target]. rewrite app_nil_r, library_sequence, Sn by lia. reflexivity.
Qed.
Lemma read_choice : forall k mp depth vals args ns, open_keys vals -> length mp = S (2 * depth) -> In (length ns) (gt_choices T) ->
  all_some (map (read_arg items unicode id k mp vals) args) = Some (map (fun n => Arg (M_node n)) ns) ->
  read (S k) mp vals (generic (root_of depth) (lit "Choice" ++ decimal (length ns)) args) = Some (M_node (Choice ns)).
Proof.
  intros k mp depth vals args fs O L I A. unfold generic. destruct (root_head depth) as (r & R).
  assert (Rs := resolve_generic config T top o_top Types depth mp (lit "Choice" ++ decimal (length fs)) L).
  rewrite (entry_choice T (length fs) (proj1 Track) I) in Rs.
  assert (L2 : 2 <= length fs) by (apply (proj2 Track); right; exact I).
  rewrite R in *. change ((lit "super" :: r) ++ [generics_mod; lit "Choice" ++ decimal (length fs)]) with (lit "super" :: (r ++ [generics_mod; lit "Choice" ++ decimal (length fs)])) in *.
  erewrite (read_step items unicode id k mp vals _ _ args); [|apply open_lookup; [exact O|apply reserved_in; cbn [In]; tauto]|exact A].
  assert (Sn : choice_node (length fs) (map (fun n => Arg (M_node n)) fs) = Some (Choice fs)).
  { unfold choice_node. rewrite nodes_read, Nat.eqb_refl. reflexivity. }
  rewrite Rs. destruct (16 <? length fs) eqn:Q.
  - cbn [read_target]. rewrite Sn. reflexivity.
  - apply Nat.ltb_ge in Q. cbn [read_target]. rewrite app_nil_r, library_choice, Sn by lia. reflexivity.
Qed.
Lemma read_option : forall k mp vals t n, open_keys vals -> read k mp vals t = Some (M_node n) ->
  read (S k) mp vals (Ty [pest_crate; lit "std"; lit "Option"] [A_type t]) = Some (M_node (Opt n)).
Proof.
  intros k mp vals t n O R. rewrite (read_step items unicode id k mp vals _ _ _ [Arg (M_node n)]);
    [reflexivity|apply open_lookup; [exact O|apply reserved_in; cbn [In]; tauto]|].
  cbn [map read_arg all_some]. rewrite R. reflexivity.
Qed.
Lemma read_property : forall mp depth vals u, open_keys vals -> length mp = S (2 * depth) -> In u unicode ->
  exists i, nth_error unicode i = Some u /\ read 1 mp vals (Ty (root_of depth ++ [lit "unicode"; uppercase u]) []) = Some (M_node (Property (N.of_nat i))).
Proof.
  intros mp depth vals u O L I. destruct (library_property unicode u Props I) as (i & N & E). exists i. split; [exact N|].
  destruct (root_head depth) as (r & R). assert (Rs := resolve_property config T top o_top Types depth mp (uppercase u) L). rewrite R in *. cbn [app] in *.
  rewrite (read_step items unicode id 0 mp vals _ _ [] []); [|apply open_lookup; [exact O|apply reserved_in; cbn [In]; tauto]|reflexivity].
  rewrite Rs. cbn [read_target]. rewrite E. reflexivity.
Qed.

Section Expr.
Variable mp : list text.
Variable depth : nat.
Variable g : gmodule.
Variable coll : list (text * mnode).
Hypothesis Em : emitted mp depth g coll.
Variable params : list text.
Hypothesis Open : forall x, In x params -> ~ In x reserved /\ forall g', ~ In (File x g') (g_imports g).
Variable cs : list closure.
Variable ns : list node.
Hypothesis Args : arguments cs ns.
Hypothesis Len : length cs = length params.
Notation rho := (combine params cs).
Notation vals := (combine params ns).
Notation pe := (process_expr params (mkSys coll (make_global unicode)) (root_of depth)).

Lemma vals_open : open_keys vals.
Proof.
  intros x I. apply in_map_iff in I. destruct I as ((y, n) & <- & I). apply in_combine_l in I. apply Open, I.
Qed.
Lemma mp_length : length mp = S (2 * depth).
Proof. destruct Em as (o & _ & _ & L & _). exact L. Qed.
Lemma not_param_rho : forall path, (forall x, path = [x] -> ~ In x params) -> not_param rho path.
Proof. intros path N x c E A. apply assoc_in, in_combine_l in A. exact (N x E A). Qed.

Definition good_read (e : parse_expr) (i : intermediate) : Prop :=
  exists k n, read k mp vals (i_type i) = Some (M_node n) /\ compiles g rho e n.

Lemma good_list : forall l is, Forall2 good_read l is ->
  exists k l', Forall2 (fun t n => read k mp vals t = Some (M_node n)) (map i_type is) l' /\ Forall2 (fun e n => compiles g rho e n) l l'.
Proof.
  intros l is F. induction F as [|e i l is (k & n & R & C) F (k' & l' & R' & C')]; [exists 0, []; split; constructor|].
  exists (k + k'), (n :: l'). split; [|constructor; assumption]. cbn [map]. constructor; [eapply read_more; [|exact R]; lia|].
  clear - R'. induction R'; constructor; [eapply read_more; [|eassumption]; lia|assumption].
Qed.
Lemma good_pairs : forall l is, Forall2 (fun te i => good_read (snd te) i /\ ready mp g (fst te)) l is ->
  exists k fs,
    all_some (map (read_arg items unicode id k mp vals)
      (flat_map (fun ti => [A_type (i_type (snd ti)); A_type (embed_trivia (fst ti))]) (combine (map fst l) is))) =
    Some (flat_map (fun f => [Arg (M_node (fst f)); Arg (M_node (snd f))]) fs) /\
    Forall2 (fun te f => compiles g rho (snd te) (fst f) /\ triv g (fst te) (snd f)) l fs.
Proof.
  intros l is F. induction F as [|te i l is ((k & n & R & C) & (k1 & tr & Tr & R1)) F (k' & fs & A & F')]; [exists 0, []; split; [reflexivity|constructor]|].
  exists (k + k1 + k'), ((n, tr) :: fs). split; [|constructor; [split; assumption|exact F']].
  cbn [map fst combine flat_map snd app all_some read_arg].
  rewrite (read_more items unicode id k (k + k1 + k') _ _ _ _ ltac:(lia) R).
  rewrite (read_more items unicode id k1 (k + k1 + k') _ _ _ _ ltac:(lia) (R1 _ vals_open)).
  rewrite (all_some_more _ (read_arg items unicode id (k + k1 + k') mp vals) _ _) with (2 := A); [reflexivity|].
  intros [|t| | |] b Q; try exact Q. cbn [read_arg] in *. destruct (read k' mp vals t) as [d'|] eqn:Q'; [|discriminate].
  rewrite (read_more items unicode id k' (k + k1 + k') _ _ _ _ ltac:(lia) Q'). exact Q.
Qed.
Lemma all_compile_list : forall l l', Forall2 (fun e n => compiles g rho e n) (map n_expr l) l' -> all_compile g rho l l'.
Proof.
  induction l as [|a l IH]; intros l' F; inversion F; subst; [constructor|]. constructor; [assumption|apply IH; assumption].
Qed.

Lemma head_open : forall k p x, own_name unicode g (k :: p) x -> (p = [] -> ~ In k params) -> (forall q, x <> E_builtin q) -> lookup k vals = None.
Proof.
  intros k p x O N B. apply lookup_none. intro I. apply in_map_iff in I. destruct I as ((y, n) & E & I). cbn in E. subst y. apply in_combine_l in I.
  inversion O; subst.
  - exact (N eq_refl I).
  - eapply B. reflexivity.
  - destruct (Open k I) as (_ & H). eapply H. eassumption.
Qed.

Ltac leaf_builtin Nr Nm := split; [exact Nr|eexists; split; [exact Nm|]]; try discriminate;
  let Q := fresh in intro Q; injection Q as Q; subst; match goal with J : In (lit "push") _ |- _ => cbn [map In] in J; intuition discriminate end.
(** References. *)
Lemma read_reference : forall path args pargs is i l,
  (forall x, path = [x] -> ~ In x params) ->
  sys_resolve (mkSys coll (make_global unicode)) (mkRuleRef path pargs) (root_of depth) = inl i ->
  (args = None /\ pargs = None /\ l = [] /\ is = [] \/ args = Some (PCall l) /\ pargs = Some (PA_call is) \/
   exists range, args = Some (PSlice range) /\ pargs = Some (PA_slice range)) ->
  Forall2 good_read (map n_expr l) is ->
  good_read (PPath path args) i.
Proof.
  intros path args pargs is i l Np Rs Ar F.
  destruct (proj1 (resolve_iff config fuel unicode T top o_top Types Props _ _ _ _ path pargs (root_of depth) Em)) as (x & Nm & Tk); [eexists; exact Rs|].
  destruct (names_resolve config fuel unicode T top o_top Types Props _ _ _ _ _ _ Em Nm) as (n & Rn & St).
  assert (On : only_names unicode g path x).
  { split; [exact Nm|]. intros y Ny. symmetry. eapply names_unique; [exact Types|exact Em|exact Nm|exact Ny]. }
  assert (Nr := not_param_rho path Np). assert (Fi : fine unicode g) by (destruct Em as (o & _ & _ & _ & _ & Fi); exact Fi).
  unfold sys_resolve in Rs. cbn [rr_path rr_args] in Rs. rewrite Rn in Rs. destruct path as [|h path]; [discriminate|].
  remember (h :: path) as p eqn:Ep. clear Ep.
  assert (Al : forall args', usage_of pargs = U_alone -> (args' = args -> args' = None)).
  { intros args' U ->. destruct Ar as [(-> & -> & _)|[(-> & ->)|(range & -> & ->)]]; [reflexivity|discriminate|discriminate]. }
  destruct x as [q|g' r].
  - cbn [stands_for] in St. destruct (names_last _ _ _ _ Nm Fi) as [La|(x & La)]; destruct St as [x0 I| |x0 I| | |u I]; try discriminate La.
    + cbn [m_get direct rg_call] in Rs. destruct pargs as [[]|]; try discriminate. injection Rs as <-. rewrite La. cbn [last].
      destruct (plain_alone property env unicode x0 I) as (It & n & E & A).
      exists 1, n. split.
      * cbn [i_type referring]. change (Ty (root_of depth ++ [generics_mod; x0]) []) with (generic (root_of depth) x0 []). rewrite (read_generic 0 mp depth vals x0 [] [] _ vals_open mp_length It E); reflexivity.
      * apply K_leaf, Leaf; [eapply alone_leaf, A|left; eapply alone_unsliced, A|destruct (alone_unplaced _ _ _ _ _ A) as [U|U]; [left; exact U|right; rewrite U in Nm; eauto]|split; [leaf_builtin Nr Nm|apply (alone_misused property env unicode g p args _ _ Nm); [rewrite (Al args eq_refl eq_refl); discriminate|exact A]]|]. apply (alone_reference _ _ _ Props g rho p args [x0]); try assumption.
        left. apply (Al args); reflexivity.
    + cbn [m_get rg_call] in Rs. destruct pargs as [[is'|range]|]; try discriminate.
      * destruct Ar as [(_ & ? & _)|[(_ & ?)|(range' & -> & E)]]; try discriminate. injection E as <-.
        set (a := match r_start range with Some z => z | None => 0%Z end) in *.
        assert (Sa : r_start range = Some a \/ r_start range = None /\ a = 0%Z) by (subst a; destruct (r_start range); [left|right]; auto).
        destruct (r_end range) as [b|] eqn:Eb; injection Rs as <-.
        -- exists 1, (PeekSlice2 a b). split.
           ++ cbn [i_type referring]. change (Ty (root_of depth ++ [generics_mod; lit "PeekSlice2"]) [A_isize a; A_isize b]) with (generic (root_of depth) (lit "PeekSlice2") [A_isize a; A_isize b]).
              erewrite (read_generic 0 mp depth vals _ _ _ _ vals_open mp_length); [| |reflexivity|reflexivity]; [reflexivity|apply (in_map lit); cbn [In]; tauto].
           ++ apply K_leaf, Leaf; [apply Leaf_flat; reflexivity|right; eauto|left; reflexivity|split; [leaf_builtin Nr Nm|apply Mis_slice; [exact Nm|rewrite Eb; reflexivity]]|]. apply (slice_reference unicode property env g rho p range a); try assumption. right. exists b. split; [reflexivity|exact Eb].
        -- exists 1, (PeekSlice1 a). split.
           ++ cbn [i_type referring]. change (Ty (root_of depth ++ [generics_mod; lit "PeekSlice1"]) [A_isize a]) with (generic (root_of depth) (lit "PeekSlice1") [A_isize a]).
              erewrite (read_generic 0 mp depth vals _ _ _ _ vals_open mp_length); [| |reflexivity|reflexivity]; [reflexivity|apply (in_map lit); cbn [In]; tauto].
           ++ apply K_leaf, Leaf; [apply Leaf_flat; reflexivity|right; eauto|left; reflexivity|split; [leaf_builtin Nr Nm|apply Mis_slice; [exact Nm|rewrite Eb; reflexivity]]|]. apply (slice_reference unicode property env g rho p range a); try assumption. left. split; [reflexivity|exact Eb].
      * injection Rs as <-. rewrite La. exists 1, Peek. split.
        -- cbn [i_type referring last]. change (Ty (root_of depth ++ [generics_mod; lit "peek"]) [A_life]) with (generic (root_of depth) (lit "peek") [A_life]).
           erewrite (read_generic 0 mp depth vals _ _ _ _ vals_open mp_length); [| |reflexivity|reflexivity]; [reflexivity|apply (in_map lit); cbn [In]; tauto].
        -- apply K_leaf, Leaf; [apply Leaf_flat; reflexivity|left; reflexivity|left; reflexivity|split; [leaf_builtin Nr Nm|apply (alone_misused property env unicode g p args _ _ Nm); [rewrite (Al args eq_refl eq_refl); discriminate|constructor]]|]. apply (alone_reference _ _ _ Props g rho p args [lit "stack"; lit "peek"]); try assumption.
           ++ left. apply (Al args); reflexivity.
           ++ constructor.
    + cbn [m_get direct_life rg_call] in Rs. destruct pargs as [[]|]; try discriminate. injection Rs as <-. rewrite La. cbn [last].
      destruct (life_alone property env unicode x0 I) as (It & n & E & A).
      exists 1, n. split.
      * cbn [i_type referring]. change (Ty (root_of depth ++ [generics_mod; x0]) [A_life]) with (generic (root_of depth) x0 [A_life]). rewrite (read_generic 0 mp depth vals x0 [A_life] [Arg_life] _ vals_open mp_length It E); reflexivity.
      * apply K_leaf, Leaf; [eapply alone_leaf, A|left; eapply alone_unsliced, A|destruct (alone_unplaced _ _ _ _ _ A) as [U|U]; [left; exact U|right; rewrite U in Nm; eauto]|split; [leaf_builtin Nr Nm|apply (alone_misused property env unicode g p args _ _ Nm); [rewrite (Al args eq_refl eq_refl); discriminate|exact A]]|]. apply (alone_reference _ _ _ Props g rho p args [lit "stack"; x0]); try assumption.
        left. apply (Al args); reflexivity.
    + cbn [m_get direct rg_call] in Rs. destruct pargs as [[]|]; try discriminate. injection Rs as <-. rewrite La.
      exists 1, Drop. split.
      * cbn [i_type referring last]. change (Ty (root_of depth ++ [generics_mod; lit "drop"]) []) with (generic (root_of depth) (lit "drop") []).
        erewrite (read_generic 0 mp depth vals _ _ _ _ vals_open mp_length); [| |reflexivity|reflexivity]; [reflexivity|apply (in_map lit); cbn [In]; tauto].
      * apply K_leaf, Leaf; [apply Leaf_flat; reflexivity|left; reflexivity|left; reflexivity|split; [leaf_builtin Nr Nm|apply (alone_misused property env unicode g p args _ _ Nm); [rewrite (Al args eq_refl eq_refl); discriminate|constructor]]|]. apply (alone_reference _ _ _ Props g rho p args [lit "stack"; lit "drop"]); try assumption.
        -- left. apply (Al args); reflexivity.
        -- constructor.
    + cbn [m_get rg_call] in Rs. destruct pargs as [[is'|range]|]; try discriminate.
      destruct Ar as [(_ & ? & _)|[(-> & E)|(range' & _ & ?)]]; try discriminate. injection E as ->.
      destruct is as [|j [|j' is]]; cbn [length Nat.eqb] in Rs; try discriminate. injection Rs as <-.
      inversion F as [|e0 i0 l0 is0 (k & n & R & C) F' E1 E2]; subst. inversion F'; subst. destruct l as [|a [|b l]]; try discriminate. cbn [map] in *. match goal with E : _ = n_expr a |- _ => idtac | E : [_] = [_] |- _ => injection E as -> | _ => idtac end.
      exists (S k), (Push n). split.
      * cbn [i_type referring map]. rewrite La. cbn [last]. change (Ty (root_of depth ++ [generics_mod; lit "push"]) [A_type (i_type j)]) with (generic (root_of depth) (lit "push") [A_type (i_type j)]).
        erewrite (read_generic k mp depth vals _ _ [Arg (M_node n)] _ vals_open mp_length); [| |reflexivity|]; [reflexivity|apply (in_map lit); cbn [In]; tauto|].
        cbn [map all_some read_arg]. rewrite R. reflexivity.
      * apply K_core. apply K_push; assumption.
    + cbn [m_get] in Rs. destruct (read_property mp depth vals u vals_open mp_length I) as (j & Nj & R).
      exists 1, (Property (N.of_nat j)).
      assert (A : alone_node property env unicode [lit "unicode"; folded u] (Property (N.of_nat j))) by (constructor; exact Nj).
      destruct pargs as [[[|? ?]|range]|]; try discriminate; injection Rs as <-; (split; [exact R|]);
        (apply K_leaf, Leaf; [apply Leaf_flat; reflexivity|left; reflexivity|left; reflexivity|split; [leaf_builtin Nr Nm|apply (alone_misused property env unicode g p args _ _ Nm); [intro; destruct Ar as [(-> & _)|[(-> & _)|(? & _ & ?)]]; discriminate|exact A]]|]); apply (alone_reference _ _ _ Props g rho p args [lit "unicode"; folded u]); try assumption.
      * right. destruct Ar as [(_ & ? & _)|[(-> & E)|(range' & _ & ?)]]; try discriminate. injection E as <-. inversion F as [E1|]. destruct l; [|discriminate].
        split; [reflexivity|eauto].
      * left. apply (Al args); reflexivity.
    + cbn [m_get] in Rs. destruct (read_property mp depth vals u vals_open mp_length I) as (j & Nj & R).
      exists 1, (Property (N.of_nat j)).
      assert (A : alone_node property env unicode [lit "unicode"; folded u] (Property (N.of_nat j))) by (constructor; exact Nj).
      destruct pargs as [[[|? ?]|range]|]; try discriminate; injection Rs as <-; (split; [exact R|]);
        (apply K_leaf, Leaf; [apply Leaf_flat; reflexivity|left; reflexivity|left; reflexivity|split; [leaf_builtin Nr Nm|apply (alone_misused property env unicode g p args _ _ Nm); [intro; destruct Ar as [(-> & _)|[(-> & _)|(? & _ & ?)]]; discriminate|exact A]]|]); apply (alone_reference _ _ _ Props g rho p args [lit "unicode"; folded u]); try assumption.
      * right. destruct Ar as [(_ & ? & _)|[(-> & E)|(range' & _ & ?)]]; try discriminate. injection E as <-. inversion F as [E1|]. destruct l; [|discriminate].
        split; [reflexivity|eauto].
      * left. apply (Al args); reflexivity.
  - destruct (resolve_rule config fuel unicode T top o_top Track _ _ _ _ _ _ _ _ Em Nm St) as (mp' & d' & c' & s & Em' & Sm & Re).
    destruct St as (-> & Ir & Nt & La & _). rewrite La in Re, Rs.
    assert (Own : own_name unicode g p (E_rule g' r)) by (inversion Nm; assumption).
    destruct p as [|h0 p0]; [inversion Own|].
    destruct (module_path_head h0 p0) as (rest & Mh). rewrite La in Mh.
    assert (Hd : lookup h0 vals = None) by (eapply head_open; [exact Own|intros ->; apply Np; reflexivity|discriminate]).
    destruct (good_list _ _ F) as (k & l' & Rl & Cl).
    assert (Loc : located tm top mp' g') by (destruct Em' as (o' & _ & _ & _ & Loc & _); exact Loc).
    assert (Sn : gs_name s = pr_name r /\ gs_params s = pr_args r).
    { destruct Sm as (reach & i0 & _ & _ & -> & _). split; reflexivity. }
    destruct Sn as (Sn & Sp).
    assert (Ll : length l' = length l) by (apply forall2_length in Cl; rewrite map_length in Cl; congruence).
    assert (Li : length is = length l) by (apply forall2_length in Rl; rewrite map_length in Rl; congruence).
    assert (Goal : i_type i = Ty (module_path (h0 :: p0) ++ [pr_name r]) (A_life :: map A_type (map i_type is)) /\
                   call_arguments args l /\ length l = length (pr_args r)).
    { cbn [m_get rg_call rr_path] in Rs. rewrite map_map.
      destruct (length (pr_args r)) as [|argc] eqn:Ea.
      - destruct pargs as [[[|? ?]|range]|]; try discriminate; injection Rs as <-.
        + destruct Ar as [(_ & ? & _)|[(-> & E)|(range' & _ & ?)]]; try discriminate. injection E as <-. destruct l; [|discriminate].
          split; [reflexivity|split; [left; reflexivity|reflexivity]].
        + destruct Ar as [(-> & _ & -> & ->)|[(_ & ?)|(range' & _ & ?)]]; try discriminate.
          split; [reflexivity|split; [right; split; reflexivity|reflexivity]].
      - destruct pargs as [[is'|range]|]; try discriminate. destruct (Nat.eqb (S argc) (length is')) eqn:Q; [|discriminate].
        injection Rs as <-. cbn [i_type referring]. apply Nat.eqb_eq in Q.
        destruct Ar as [(_ & ? & _)|[(-> & E)|(range' & _ & ?)]]; try discriminate. injection E as ->.
        split; [reflexivity|split; [left; reflexivity|congruence]]. }
    destruct Goal as (Et & Ca & Lp).
    exists (S k), (Rule (id mp' (pr_name r)) l'). split.
    + rewrite Et, Mh in *. rewrite (read_step items unicode id k mp vals h0 rest _ (Arg_life :: map (fun n => Arg (M_node n)) l') Hd).
      * rewrite Re. cbn [read_target]. rewrite nodes_read, Sn, Sp, Ll, Lp, Nat.eqb_refl. reflexivity.
      * cbn [map read_arg all_some]. rewrite (types_read items unicode id k mp vals _ _ Rl). reflexivity.
    + apply K_core. eapply K_rule; try eassumption. apply all_compile_list, Cl.
Qed.

Lemma list_read : forall (process : parse_expr -> gtracker -> outcome (intermediate * gtracker)) l tr is tr',
  process_list process l tr = Ret (is, tr') -> good_tracker tr -> extends tr' T ->
  (forall e tr i tr', In e l -> process e tr = Ret (i, tr') -> grows tr tr') ->
  (forall e tr i tr', In e l -> process e tr = Ret (i, tr') -> good_tracker tr -> extends tr' T -> good_read e i) ->
  Forall2 good_read l is.
Proof.
  intros process. induction l as [|e l IH]; intros tr is tr' H G X Gr P; cbn [process_list] in H.
  - injection H as <- <-. constructor.
  - destruct (process e tr) as [(i, t1)| |] eqn:E1; try discriminate. cbn [obind] in H.
    destruct (process_list process l t1) as [(is1, t2)| |] eqn:E2; try discriminate. cbn [obind] in H. injection H as <- <-.
    destruct (Gr _ _ _ _ (or_introl eq_refl) E1 G) as (G1 & _).
    assert (Gl : grows t1 t2) by (eapply process_list_spec; [exact E2|]; intros; eapply Gr; [right|]; eassumption).
    destruct (Gl G1) as (G2 & X2).
    constructor.
    + eapply P; [left; reflexivity|exact E1|exact G|eapply extends_trans; eassumption].
    + eapply IH; [exact E2|exact G1|exact X| |]; intros; [eapply Gr|eapply P]; try (right; eassumption); eassumption.
Qed.

Theorem read_expr : forall F e tr i tr', pe F e tr = Ret (i, tr') -> good_tracker tr -> extends tr' T ->
  (forall t, asks e t -> ready mp g t) -> good_read e i.
Proof.
  assert (O := vals_open). assert (ML := mp_length).
  induction F as [|F IH]; intros e tr i tr' H G X Rd; [discriminate|].
  assert (One : forall n tr i tr', pe F (n_expr n) tr = Ret (i, tr') -> good_tracker tr -> extends tr' T -> operand_of (n_expr n) e ->
    exists k m, read k mp vals (i_type i) = Some (M_node m) /\ compiles g rho (n_expr n) m).
  { intros n t j t' H' G' X' Op. eapply IH; [exact H'|exact G'|exact X'|]. intros u A. apply Rd. eapply asks_operand; eassumption. }
  assert (Rt : forall n, operand_of (n_expr n) e -> ready mp g (get_trivia (n_expr n))).
  { intros n Op. destruct (n_expr n) eqn:En; cbn [get_trivia]; try apply none_ready. destruct t; [apply none_ready| |]; apply Rd;
      (eapply asks_operand; [exact Op|]); right; eexists; apply Part_self. }
  assert (Gt : forall n, round_trivia (n_expr n) (get_trivia (n_expr n))).
  { intro n. destruct (n_expr n) eqn:En; try (right; split; [discriminate|reflexivity]). left. eexists. reflexivity. }
  destruct e as [s|s|ca cb|path args|n|n|l r t|l r|n|n|n|n r|n t]; cbn [process_expr] in H.
  - (* text *)
    destruct (insert_string_wrapper s tr) as (w, t1) eqn:E. injection H as <- <-.
    destruct (insert_string_spec _ _ _ _ (proj1 G) E) as (Ok & _ & j & -> & I). apply in_counter_wrapper in I; [|exact Ok].
    apply (extends_wrapper _ _ _ _ X) in I.
    exists 2, (Str s). split.
    + cbn [i_type]. erewrite (read_generic 1 mp depth vals _ _ [Arg (M_text s)] _ O ML); [| |reflexivity|]; [reflexivity|apply (in_map lit); cbn [In]; tauto|].
      cbn [map all_some read_arg]. rewrite (read_wrapper 0 mp depth vals _ s O ML I). reflexivity.
    + apply K_leaf, Leaf; [apply Leaf_flat; reflexivity|left; reflexivity|left; reflexivity|split; [exact Logic.I|apply Mis_text; [discriminate|reflexivity]]|]. intros. apply str_same.
  - destruct (insert_string_wrapper s tr) as (w, t1) eqn:E. injection H as <- <-.
    destruct (insert_string_spec _ _ _ _ (proj1 G) E) as (Ok & _ & j & -> & I). apply in_counter_wrapper in I; [|exact Ok].
    apply (extends_wrapper _ _ _ _ X) in I.
    exists 2, (Insens s). split.
    + cbn [i_type]. erewrite (read_generic 1 mp depth vals _ _ [Arg_life; Arg (M_text s)] _ O ML); [| |reflexivity|]; [reflexivity|apply (in_map lit); cbn [In]; tauto|].
      cbn [map all_some read_arg]. rewrite (read_wrapper 0 mp depth vals _ s O ML I). reflexivity.
    + apply K_leaf, Leaf; [apply Leaf_flat; reflexivity|left; reflexivity|left; reflexivity|split; [exact Logic.I|apply Mis_text; [discriminate|reflexivity]]|]. intros. apply insens_same.
  - injection H as <- <-. eexists 1, (CharRange _ _). split.
    + cbn [i_type]. erewrite (read_generic 0 mp depth vals _ _ _ _ O ML); [| |reflexivity|reflexivity]; [reflexivity|apply (in_map lit); cbn [In]; tauto].
    + apply K_leaf, Leaf; [apply Leaf_flat; reflexivity|left; reflexivity|left; reflexivity|split; [exact Logic.I|apply Mis_text; [discriminate|reflexivity]]|]. intros. apply range_same.
  - (* path *)
    destruct (match path with [x] => if text_in x params then Some x else None | _ => None end) as [x|] eqn:Px.
    + injection H as <- <-. destruct path as [|y [|? ?]]; try discriminate. destruct (text_in_spec y params) as [I|]; [|discriminate]. injection Px as <-.
      destruct (lookup_combine_in _ params cs ns Args Len y I) as ((g', rho', e') & n & A & L & C).
      exists 1, n. split; [cbn [i_type]; rewrite read_eq, L; reflexivity|]. eapply K_param; eassumption.
    + assert (Np : forall x, path = [x] -> ~ In x params).
      { intros x -> I. destruct (text_in_spec x params); [discriminate|contradiction]. }
      destruct args as [[l|range]|]; cbn [obind] in H.
      * destruct (process_list (pe F) (map n_expr l) tr) as [(is, t1)| |] eqn:El; try discriminate. cbn [obind] in H.
        destruct (sys_resolve _ _ _) as [j|] eqn:Rs; [|discriminate]. injection H as <- <-.
        eapply (read_reference path _ _ is j l Np Rs); [right; left; split; reflexivity|].
        eapply list_read; [exact El|exact G|exact X| |].
        -- intros e t j' t' _ Hp. eapply process_expr_grows, Hp.
        -- intros e t j' t' I Hp Gt' Xt'. apply in_map_iff in I. destruct I as (n & <- & I). eapply One; try eassumption. apply Op_arg, I.
      * destruct (sys_resolve _ _ _) as [j|] eqn:Rs; [|discriminate]. injection H as <- <-.
        eapply (read_reference path _ _ [] j [] Np Rs); [right; right; exists range; split; reflexivity|constructor].
      * destruct (sys_resolve _ _ _) as [j|] eqn:Rs; [|discriminate]. injection H as <- <-.
        eapply (read_reference path _ _ [] j [] Np Rs); [left; repeat split|constructor].
  - destruct (pe F (n_expr n) tr) as [(j, t1)| |] eqn:E; try discriminate. cbn [obind] in H. injection H as <- <-.
    destruct (One _ _ _ _ E G X (Op_pos n)) as (k & m & R & C). exists (S k), (Positive m). split.
    + cbn [i_type]. erewrite (read_generic k mp depth vals _ _ [Arg (M_node m)] _ O ML); [| |reflexivity|]; [reflexivity|apply (in_map lit); cbn [In]; tauto|].
      cbn [map all_some read_arg]. rewrite R. reflexivity.
    + apply K_core, K_pos, C.
  - destruct (pe F (n_expr n) tr) as [(j, t1)| |] eqn:E; try discriminate. cbn [obind] in H. injection H as <- <-.
    destruct (One _ _ _ _ E G X (Op_neg n)) as (k & m & R & C). exists (S k), (Negative m). split.
    + cbn [i_type]. erewrite (read_generic k mp depth vals _ _ [Arg (M_node m)] _ O ML); [| |reflexivity|]; [reflexivity|apply (in_map lit); cbn [In]; tauto|].
      cbn [map all_some read_arg]. rewrite R. reflexivity.
    + apply K_core, K_neg, C.
  - (* sequence *)
    destruct (process_list (pe F) (map snd (collect_sequence (n_expr l) (n_expr r) t)) tr) as [(is, t1)| |] eqn:El; try discriminate.
    cbn [obind] in H. injection H as <- <-.
    assert (X1 : extends t1 T) by (eapply extends_trans; [apply record_seq_extends|exact X]).
    assert (As : forall te, In te (collect_sequence (n_expr l) (n_expr r) t) -> ready mp g (fst te) /\ forall u, asks (snd te) u -> ready mp g u).
    { intros te [<-|I]; cbn [fst snd].
      - split; [apply none_ready|]. intros u A. apply Rd. eapply asks_operand; [apply Op_seq_l|exact A].
      - destruct (sequence_asks _ _ _ I) as (A & B). split.
        + destruct A as [->|A]; [|apply Rd; eapply asks_operand; [apply Op_seq_r|exact A]].
          apply Rd. left. do 2 eexists. apply Part_self.
        + intros u Au. apply Rd. eapply asks_operand; [apply Op_seq_r|apply B, Au]. }
    assert (F1 : Forall2 good_read (map snd (collect_sequence (n_expr l) (n_expr r) t)) is).
    { eapply list_read; [exact El|exact G|exact X1| |].
      - intros e t0 j' t' _ Hp. eapply process_expr_grows, Hp.
      - intros e t0 j' t' I Hp Gt' Xt'. apply in_map_iff in I. destruct I as (te & <- & I). eapply IH; [exact Hp|exact Gt'|exact Xt'|]. apply As, I. }
    assert (F2 : Forall2 (fun te i => good_read (snd te) i /\ ready mp g (fst te)) (collect_sequence (n_expr l) (n_expr r) t) is).
    { clear - F1 As. revert is F1. induction (collect_sequence (n_expr l) (n_expr r) t) as [|te its IHl]; intros is F1; inversion F1; subst; constructor.
      - split; [assumption|]. apply As. left. reflexivity.
      - apply IHl; [|assumption]. intros te' I. apply As. right. exact I. }
    destruct (good_pairs _ _ F2) as (k & fs & A & Fc).
    assert (Lf : length fs = length is) by (apply forall2_length in Fc; apply forall2_length in F2; congruence).
    exists (S k), (Seq fs). split.
    + cbn [i_type]. rewrite <- Lf. apply read_sequence; [exact O|exact ML| |exact A].
      destruct X as (_ & X & _). apply X. cbn [record_seq gt_seqs]. rewrite <- Lf. apply arity_insert_in.
    + apply K_core, K_seq. unfold collect_sequence in Fc. inversion Fc as [|te f its fs' (Cf & Tf) Fc' E1 E2]; subst. cbn [snd fst] in *.
      destruct f as (n0, t0). cbn [sequence_items]. apply Turn_expr; [exact Cf|]. apply flatten_in_turn, Fc'.
  - (* choice *)
    destruct (process_list (pe F) (collect_choices (n_expr l) (n_expr r)) tr) as [(is, t1)| |] eqn:El; try discriminate.
    cbn [obind] in H. injection H as <- <-.
    assert (X1 : extends t1 T) by (eapply extends_trans; [apply record_choice_extends|exact X]).
    assert (F1 : Forall2 good_read (collect_choices (n_expr l) (n_expr r)) is).
    { eapply list_read; [exact El|exact G|exact X1| |].
      - intros e t0 j' t' _ Hp. eapply process_expr_grows, Hp.
      - intros e t0 j' t' I Hp Gt' Xt'. eapply IH; [exact Hp|exact Gt'|exact Xt'|]. intros u A. apply Rd. destruct I as [<-|I].
        + eapply asks_operand; [apply Op_choice_l|exact A].
        + eapply asks_operand; [apply Op_choice_r|eapply choices_asks; eassumption]. }
    destruct (good_list _ _ F1) as (k & l' & Rl & Cl).
    assert (Lf : length l' = length is) by (apply forall2_length in Rl; rewrite map_length in Rl; congruence).
    exists (S k), (Choice l'). split.
    + cbn [i_type]. rewrite <- Lf. apply read_choice; [exact O|exact ML| |].
      * destruct X as (_ & _ & X). apply X. cbn [record_choice gt_choices]. rewrite <- Lf. apply arity_insert_in.
      * rewrite <- (map_map i_type A_type). apply types_read, Rl.
    + apply K_core. unfold collect_choices in Cl. inversion Cl as [|e0 n0 es ns' C0 Cr E1 E2]; subst. apply K_choice; [exact C0|]. apply flatten_one_of, Cr.
  - destruct (pe F (n_expr n) tr) as [(j, t1)| |] eqn:E; try discriminate. cbn [obind] in H. injection H as <- <-.
    destruct (One _ _ _ _ E G X (Op_opt n)) as (k & m & R & C). exists (S k), (Opt m). split; [apply read_option; assumption|].
    apply K_core, K_opt, C.
  - destruct (pe F (n_expr n) tr) as [(j, t1)| |] eqn:E; try discriminate. cbn [obind] in H. injection H as <- <-.
    destruct (One _ _ _ _ E G X (Op_rep n)) as (k & m & R & C). destruct (Rt n (Op_rep n)) as (k1 & tn & Tr & R1). exists (S (k + k1)), (Rep m tn). split.
    + cbn [i_type]. erewrite (read_generic (k + k1) mp depth vals _ _ [Arg (M_node m); Arg (M_node tn)] _ O ML); [| |reflexivity|]; [reflexivity|apply (in_map lit); cbn [In]; tauto|].
      cbn [map all_some read_arg]. rewrite (read_more items unicode id k (k + k1) _ _ _ _ ltac:(lia) R), (read_more items unicode id k1 (k + k1) _ _ _ _ ltac:(lia) (R1 _ O)). reflexivity.
    + apply K_core. eapply K_rep; [left; repeat split|apply Gt|exact C|exact Tr].
  - destruct (pe F (n_expr n) tr) as [(j, t1)| |] eqn:E; try discriminate. cbn [obind] in H. injection H as <- <-.
    destruct (One _ _ _ _ E G X (Op_once n)) as (k & m & R & C). destruct (Rt n (Op_once n)) as (k1 & tn & Tr & R1). exists (S (k + k1)), (RepOnce m tn). split.
    + cbn [i_type]. erewrite (read_generic (k + k1) mp depth vals _ _ [Arg (M_node m); Arg (M_node tn)] _ O ML); [| |reflexivity|]; [reflexivity|apply (in_map lit); cbn [In]; tauto|].
      cbn [map all_some read_arg]. rewrite (read_more items unicode id k (k + k1) _ _ _ _ ltac:(lia) R), (read_more items unicode id k1 (k + k1) _ _ _ _ ltac:(lia) (R1 _ O)). reflexivity.
    + apply K_core. eapply K_rep; [right; left; repeat split|apply Gt|exact C|exact Tr].
  - destruct (pe F (n_expr n) tr) as [(j, t1)| |] eqn:E; try discriminate. cbn [obind] in H. injection H as <- <-.
    destruct (One _ _ _ _ E G X (Op_range n r)) as (k & m & R & C). destruct (Rt n (Op_range n r)) as (k1 & tn & Tr & R1).
    set (a := match r_start r with Some a => a | None => 0%N end). set (b := match r_end r with Some b => b | None => usize_max end).
    assert (Rep' : repetition (PRepRange n r) n a b).
    { right. right. exists r. split; [reflexivity|]. subst a b. split; [destruct (r_start r)|destruct (r_end r)]; [left|right|left|right]; try split; reflexivity. }
    assert (Ra : all_some (map (read_arg items unicode id (k + k1) mp vals) [A_type (i_type j); A_type (embed_trivia (get_trivia (n_expr n)))]) = Some [Arg (M_node m); Arg (M_node tn)]).
    { cbn [map all_some read_arg]. rewrite (read_more items unicode id k (k + k1) _ _ _ _ ltac:(lia) R), (read_more items unicode id k1 (k + k1) _ _ _ _ ltac:(lia) (R1 _ O)). reflexivity. }
    exists (S (k + k1)), (RepMinMax m tn a b). split; [|apply K_core; eapply K_rep; [exact Rep'|apply Gt|exact C|exact Tr]].
    cbn [map all_some read_arg] in Ra. subst a b.
    destruct (read (k + k1) mp vals (i_type j)) as [d1|] eqn:D1; [|discriminate].
    destruct (read (k + k1) mp vals (embed_trivia (get_trivia (n_expr n)))) as [d2|] eqn:D2; [|discriminate]. injection Ra as -> ->.
    cbn [i_type]. destruct (r_start r) as [a|], (r_end r) as [b|].
    + erewrite (read_generic (k + k1) mp depth vals _ _ [Arg (M_node m); Arg (M_node tn); Arg_usize a; Arg_usize b] _ O ML); [| |reflexivity|]; [reflexivity|apply (in_map lit); cbn [In]; tauto|].
      cbn [map all_some read_arg]. rewrite D1, D2. reflexivity.
    + erewrite (read_generic (k + k1) mp depth vals _ _ [Arg (M_node m); Arg (M_node tn); Arg_usize a] _ O ML); [| |reflexivity|]; [reflexivity|apply (in_map lit); cbn [In]; tauto|].
      cbn [map all_some read_arg]. rewrite D1, D2. reflexivity.
    + erewrite (read_generic (k + k1) mp depth vals _ _ [Arg (M_node m); Arg (M_node tn); Arg_usize b] _ O ML); [| |reflexivity|]; [reflexivity|apply (in_map lit); cbn [In]; tauto|].
      cbn [map all_some read_arg]. rewrite D1, D2. reflexivity.
    + erewrite (read_generic (k + k1) mp depth vals _ _ [Arg (M_node m); Arg (M_node tn)] _ O ML); [| |reflexivity|]; [reflexivity|apply (in_map lit); cbn [In]; tauto|].
      cbn [map all_some read_arg]. rewrite D1, D2. reflexivity.
  - (* separated *)
    destruct (One _ _ _ _ H G X (Op_separated n t)) as (k & m & R & C). exists k, m. split; [exact R|]. apply K_separated, C.
Qed.
End Expr.

(** * The trivia of an emitted module *)
Section Module.
Variable mp : list text.
Variable depth : nat.
Variable g : gmodule.
Variable coll : list (text * mnode).
Hypothesis Em : emitted mp depth g coll.

Lemma module_defined : forall r, In r (g_rules g) -> trivia_defined (g_rules g) r.
Proof.
  destruct Em as (o & M & _). apply reachability_ok. inversion M as [d g0 o0 c0 reach R]. exists reach. exact R.
Qed.
Lemma trivia_ready : forall t name r, trivia_name t = Some name -> last_rule g name r ->
  (forall t', asks (n_expr (pr_node r)) t' -> ready mp g t') -> ready mp g t.
Proof.
  intros t name r Tn La Rd. destruct (emitted_trivia config fuel unicode T top o_top mp depth g coll t name r Em Tn La) as (i & (tr & tr' & P & G & X) & sub & At & En).
  assert (Fi : fine unicode g) by (destruct Em as (o & _ & _ & _ & _ & Fi); exact Fi).
  assert (Ir : In r (g_rules g)) by (destruct La as (a & b & -> & _); apply in_or_app; right; left; reflexivity).
  assert (Np : pr_args r = []).
  { inversion Fi as [g0 _ _ _ _ _ Np _ _ _]. apply Np; [exact Ir|]. destruct La as (a & b & _ & E & _). unfold is_trivia_rule.
    destruct t; try discriminate; injection Tn as <-; [left|right]; exact E. }
  rewrite Np in P.
  destruct (read_expr mp depth g coll Em [] (fun x I => match I with end) [] [] (Forall2_nil _) eq_refl _ _ _ _ _ P G X Rd) as (k & n & R & C).
  exists (S k), n. split; [eapply Triv_rule; eassumption|]. intros vals O.
  assert (Al : exists h, embed_trivia t = Ty [h] [A_life] /\ In h reserved /\ entry h sub = Some (R_alias (i_type i)) /\ h <> pest_crate /\ h <> lit "super").
  { destruct t; try discriminate; eexists; (split; [reflexivity|]); (split; [apply reserved_in; cbn [In]; tauto|]); (split; [exact En|]); split; discriminate. }
  destruct Al as (h & -> & Ih & Eh & N1 & N2).
  rewrite (read_step items unicode id k mp vals h [] [A_life] [Arg_life] (open_lookup _ _ O Ih) eq_refl).
  unfold resolve. destruct (teqb h pest_crate); [contradiction|]. destruct (teqb h (lit "super")); [contradiction|].
  rewrite At. cbn [descend]. rewrite Eh. cbn [read_target]. exact R.
Qed.
Lemma asked_ready : forall r, In r (g_rules g) -> forall t, asks (n_expr (pr_node r)) t -> ready mp g t.
Proof.
  assert (Fi : fine unicode g) by (destruct Em as (o & _ & _ & _ & _ & Fi); exact Fi).
  inversion Fi as [g0 _ _ _ _ _ _ Self Both _]. subst g0.
  assert (In_last : forall name r, last_rule g name r -> In r (g_rules g)) by (intros name r (a & b & -> & _); apply in_or_app; right; left; reflexivity).
  assert (Def : forall r t, In r (g_rules g) -> asks (n_expr (pr_node r)) t -> t = TriviaNone \/ exists name r', trivia_name t = Some name /\ last_rule g name r').
  { intros r t I A. destruct (trivia_name t) as [name|] eqn:Tn; [right|destruct t; try discriminate; left; reflexivity].
    destruct (module_defined r I t name A Tn) as (r' & I' & E'). destruct (last_rule_exists g name r' I' E') as (r2 & L). exists name, r2. split; [reflexivity|exact L]. }
  assert (Base : forall t, (forall e, trivia_body g t e -> forall t', asks e t' -> t' = TriviaNone) ->
    forall r, In r (g_rules g) -> asks (n_expr (pr_node r)) t -> ready mp g t).
  { intros t N r I A. destruct (Def r t I A) as [->|(name & r' & Tn & L)]; [apply none_ready|].
    eapply trivia_ready; [exact Tn|exact L|]. intros t' A'. rewrite (N (n_expr (pr_node r'))) with (t' := t'); [apply none_ready| |exact A'].
    exists name, r'. repeat split; assumption. }
  assert (Step : forall t u, (t = TriviaOptional /\ u = TriviaMandatory \/ t = TriviaMandatory /\ u = TriviaOptional) ->
    (forall e, trivia_body g u e -> forall t', asks e t' -> t' = TriviaNone) ->
    forall r, In r (g_rules g) -> asks (n_expr (pr_node r)) t -> ready mp g t).
  { intros t u Tu N r I A. destruct (Def r t I A) as [->|(name & r' & Tn & L)]; [apply none_ready|].
    eapply trivia_ready; [exact Tn|exact L|]. intros t' A'. assert (t' <> t).
    { intros ->. eapply Self; [|exact A']. exists name, r'. repeat split; assumption. }
    assert (t' = TriviaNone \/ t' = u) as [->| ->] by (destruct Tu as [(-> & ->)|(-> & ->)], t'; tauto); [apply none_ready|].
    eapply Base; [exact N|eapply In_last, L|exact A']. }
  (* Whether the optional trivia asks for the mandatory one. *)
  assert (Dec : (exists e, trivia_body g TriviaOptional e /\ asks e TriviaMandatory) \/ forall e, trivia_body g TriviaOptional e -> ~ asks e TriviaMandatory).
  { destruct (existsb (fun r => text_eqb (pr_name r) (lit "~")) (g_rules g)) eqn:Ex.
    - apply existsb_exists in Ex. destruct Ex as (r & I & E). destruct (teqb (pr_name r) (lit "~")) as [Er|]; [|discriminate].
      destruct (last_rule_exists g _ r I Er) as (r' & L). destruct (uses_trivia TriviaMandatory (n_expr (pr_node r'))) eqn:U.
      + left. exists (n_expr (pr_node r')). split; [exists (lit "~"), r'; repeat split; assumption|]. apply uses_trivia_spec, U.
      + right. intros e (name & r2 & E2 & L2 & ->) A. injection E2 as <-. rewrite <- (last_rule_unique _ _ _ _ L L2) in A.
        apply uses_trivia_spec in A. congruence.
    - right. intros e (name & r & E & L & _) _. injection E as <-. rewrite <- not_true_iff_false in Ex. apply Ex, existsb_exists.
      exists r. split; [eapply In_last, L|]. destruct L as (a & b & _ & -> & _). destruct (teqb (lit "~") (lit "~")); [reflexivity|congruence]. }
  intros r I [] A; [apply none_ready| |].
  - destruct Dec as [(e & B & D)|D].
    + eapply (Step TriviaOptional TriviaMandatory); [left; split; reflexivity| |exact I|exact A].
      intros e' B' t' A'. destruct t'; [reflexivity| |].
      * exfalso. exact (Both _ _ B B' (conj D A')).
      * exfalso. exact (Self _ _ B' A').
    + eapply (Base TriviaOptional); [|exact I|exact A]. intros e' B' t' A'. destruct t'; [reflexivity| |].
      * exfalso. exact (Self _ _ B' A').
      * exfalso. exact (D _ B' A').
  - destruct Dec as [(e & B & D)|D].
    + eapply (Base TriviaMandatory); [|exact I|exact A]. intros e' B' t' A'. destruct t'; [reflexivity| |].
      * exfalso. exact (Both _ _ B B' (conj D A')).
      * exfalso. exact (Self _ _ B' A').
    + eapply (Step TriviaMandatory TriviaOptional); [right; split; reflexivity| |exact I|exact A].
      intros e' B' t' A'. destruct t'; [reflexivity| |].
      * exfalso. exact (Self _ _ B' A').
      * exfalso. exact (D _ B' A').
Qed.
Lemma body_read : forall r s cs ns, In r (g_rules g) -> struct_made config fuel unicode T o_top mp depth g coll r s ->
  length cs = length (pr_args r) -> arguments cs ns ->
  exists k n, read k mp (combine (gs_params s) ns) (gs_inner s) = Some (M_node n) /\ compiles g (combine (pr_args r) cs) (n_expr (pr_node r)) n.
Proof.
  intros r s cs ns I (reach & i & _ & (tr & tr' & P & G & X) & -> & _) L Ar. cbn [create_rule gs_params gs_inner].
  assert (Fi : fine unicode g) by (destruct Em as (o & _ & _ & _ & _ & Fi); exact Fi). inversion Fi as [g0 _ _ _ _ Pa _ _ _ _]. subst g0.
  exact (read_expr mp depth g coll Em (pr_args r) (fun x J => Pa r x I J) cs ns Ar L _ _ _ _ _ P G X (asked_ready r I)).
Qed.
End Module.

Lemma located_emitted : forall coll, Made config fuel unicode T 0 top o_top coll -> fine unicode top ->
  forall mp g, located tm top mp g -> exists depth coll', emitted mp depth g coll'.
Proof.
  intros coll M Fi mp g Lo. induction Lo as [|m g alias g' Lo (depth & coll' & Em) I].
  - exists 0, coll. apply emitted_top; assumption.
  - destruct (emitted_child config fuel unicode T top o_top Types _ _ _ _ _ _ Em I) as (c & E & _).
    rewrite (types_rules config top Types _ _ _ _ Lo I). exists (S depth), c. exact E.
Qed.
Lemma bodies_read : forall coll, Made config fuel unicode T 0 top o_top coll -> fine unicode top -> reads_rules items unicode id env ->
  forall mp g r cs ns, located tm top mp g -> In r (g_rules g) -> ~ is_trivia_rule r ->
  length cs = length (pr_args r) -> arguments cs ns ->
  compiles g (combine (pr_args r) cs) (n_expr (pr_node r)) (rd_body (env (id mp (pr_name r))) ns).
Proof.
  intros coll M Fi (_ & Rr) mp g r cs ns Lo I Nt L Ar. destruct (located_emitted coll M Fi mp g Lo) as (depth & c & Em).
  destruct (emitted_struct config fuel unicode T top o_top _ _ _ _ r Em I Nt) as (s & S).
  destruct (body_read mp depth g c Em r s cs ns I S L Ar) as (k & n & R & C).
  assert (Ps : gs_name s = pr_name r /\ gs_params s = pr_args r /\ is_struct items mp s).
  { destruct S as (reach & i & _ & _ & -> & sub & A & E). split; [reflexivity|]. split; [reflexivity|]. exists sub. split; [exact A|exact E]. }
  destruct Ps as (Pn & Pp & Is). destruct (Rr mp s Is) as (_ & B).
  destruct (B ns) as (k' & R'). { apply forall2_length in Ar. rewrite Pp. congruence. }
  rewrite Pn in R'. assert (E := read_unique items unicode id _ _ _ _ _ _ _ R R'). injection E as <-. exact C.
Qed.
End Read.
