(** What the accessor functions of the emitted structs should return.

    Nothing here depends on how the generator works out the accessors: [checks] and [eval] are the typing
    and the evaluation of Rust for the expressions that accessor functions consist of, [matched] walks
    along the grammar. *)
From Coq Require Import String List NArith ZArith Arith Bool.
From Verif Require Import Model_Text Model_Message Model_Meta Model_Import Model_Span Model_Tracker Model_Node
  Model_Generator Model_Output Spec_Grammar_Peg Spec_Rust.
Import ListNotations.
Open Scope list_scope.

(** * The values of the types

    [value_of env n v]: [v] is a value of the Rust type that stands for [n], [env] giving the types of the
    contents of the structs of rules. *)
Inductive value_of (env : rule -> rule_def) : node -> value -> Prop :=
| VO_unit n : In n [Empty; Soi; Eoi; Drop] -> value_of env n VUnit
| VO_str t : value_of env (Str t) VUnit
| VO_char c : value_of env (Char c) VUnit
| VO_negative n : value_of env (Negative n) VUnit
| VO_slice1 a : value_of env (PeekSlice1 a) VUnit
| VO_slice2 a b : value_of env (PeekSlice2 a b) VUnit
| VO_insens t u : value_of env (Insens t) (VInsens u)
| VO_span n sp : In n [Peek; PeekAll; Pop; PopAll] -> value_of env n (VSpan sp)
| VO_skip m sp : value_of env (SkipChar m) (VSpan sp)
| VO_any c : value_of env Any (VChar c)
| VO_range a b c : value_of env (CharRange a b) (VChar c)
| VO_property p c : value_of env (Property p) (VChar c)
| VO_newline x : value_of env Newline (VNewline x)
| VO_positive n v : value_of env n v -> value_of env (Positive n) (VPositive v)
| VO_push n v : value_of env n v -> value_of env (Push n) (VPush v)
| VO_rep n tr a b vs : Forall (value_of env n) vs -> value_of env (RepMinMax n tr a b) (VRep vs)
| VO_none n : value_of env (Opt n) (VOpt None)
| VO_some n v : value_of env n v -> value_of env (Opt n) (VOpt (Some v))
| VO_seq fs vs : Forall2 (fun f v => value_of env (fst f) v) fs vs -> value_of env (Seq fs) (VSeq vs)
| VO_choice ns i n v : nth_error ns i = Some n -> value_of env n v -> value_of env (Choice ns) (VChoice i v)
| VO_rule r ns v sp : value_of env (rd_body (env r) ns) v -> value_of env (Rule r ns) (VRule r v sp).

(** * Accessor functions in Rust *)

(** What an accessor returns: a reference to a value, or an option, a vector or a tuple. *)
Inductive gvalue :=
| GV_ref (v : value)
| GV_option (o : option gvalue)
| GV_vec (l : list gvalue)
| GV_tuple (l : list gvalue).

(** The values referred to, from left to right. *)
Fixpoint referred (x : gvalue) : list value :=
  match x with
  | GV_ref v => [v]
  | GV_option (Some x) => referred x
  | GV_option None => []
  | GV_vec l | GV_tuple l => flat_map referred l
  end.

(** The evaluation of the body of an accessor, [res] being a reference to [v]. [Option::flatten] takes an
    option in an option. *)
Definition flattened (flatten : bool) (o : option gvalue) : option gvalue :=
  if flatten then
    match o with Some (GV_option o') => Some (GV_option o') | Some _ => None | None => Some (GV_option None) end
  else Some (GV_option o).
Fixpoint eval (e : gexpr) (v : value) : option gvalue :=
  match e, v with
  | X_res, _ => Some (GV_ref v)
  | X_content e, VPositive c => eval e c
  | X_content e, VPush c => eval e c
  | X_field i e, VSeq vs => match nth_error vs i with Some c => eval e c | None => None end
  | X_as_ref flatten e, VOpt (Some c) => match eval e c with Some x => flattened flatten (Some x) | None => None end
  | X_as_ref flatten e, VOpt None => flattened flatten None
  | X_choice i flatten e, VChoice j c =>
      if Nat.eqb i j then match eval e c with Some x => flattened flatten (Some x) | None => None end
      else flattened flatten None
  | X_iter e, VRep vs => match all_some (map (eval e) vs) with Some l => Some (GV_vec l) | None => None end
  | X_tuple es, _ => match all_some (map (fun e => eval e v) es) with Some l => Some (GV_tuple l) | None => None end
  | _, _ => None
  end.
(** The call of an accessor of the struct [s] with the given content. The content is in a box if
    [gs_boxed] says so, and must be taken out of it by [*]. *)
Definition call (s : gstruct) (a : accessor) (content : value) : option gvalue :=
  if Bool.eqb (ac_deref a) (gs_boxed s) then eval (ac_body a) content else None.

Section Typing.
(** [read t n]: the type [t] stands for the node [n]. *)
Variable read : ty -> node -> Prop.
(** [checks e n t]: the body [e] has the type [t] if [res] is a reference to a value of the type that
    stands for [n]. *)
Inductive checks : gexpr -> node -> gtype -> Prop :=
| C_res n t : read t n -> checks X_res n (Y_ref t)
| C_content e n t : checks e n t -> checks (X_content e) (Positive n) t
| C_pushed e n t : checks e n t -> checks (X_content e) (Push n) t
| C_field i e fs n tr t : nth_error fs i = Some (n, tr) -> checks e n t -> checks (X_field i e) (Seq fs) t
| C_as_ref e n t : checks e n t -> checks (X_as_ref false e) (Opt n) (Y_option t)
| C_as_ref_flat e n t : checks e n (Y_option t) -> checks (X_as_ref true e) (Opt n) (Y_option t)
| C_choice i e ns n t : nth_error ns i = Some n -> checks e n t -> checks (X_choice i false e) (Choice ns) (Y_option t)
| C_choice_flat i e ns n t :
    nth_error ns i = Some n -> checks e n (Y_option t) -> checks (X_choice i true e) (Choice ns) (Y_option t)
| C_iter e n tr a b t : checks e n t -> checks (X_iter e) (RepMinMax n tr a b) (Y_vec t)
| C_tuple es n ts : Forall2 (fun e t => checks e n t) es ts -> checks (X_tuple es) n (Y_tuple ts).
(** [typed env x t]: what is returned has the type [t]. *)
Inductive typed (env : rule -> rule_def) : gvalue -> gtype -> Prop :=
| T_ref v t n : read t n -> value_of env n v -> typed env (GV_ref v) (Y_ref t)
| T_none t : typed env (GV_option None) (Y_option t)
| T_some x t : typed env x t -> typed env (GV_option (Some x)) (Y_option t)
| T_vec l t : Forall (fun x => typed env x t) l -> typed env (GV_vec l) (Y_vec t)
| T_tuple l ts : Forall2 (typed env) l ts -> typed env (GV_tuple l) (Y_tuple ts).
End Typing.

(** * What the grammar says *)

(** The name of what is referred to. *)
Definition entity_name (x : entity) : text :=
  match x with E_builtin q => last q [] | E_rule _ r => pr_name r end.

Section Matched.
Variable unicode : list text.
Variable g : gmodule.
Variable params : list text.
Variable name : text.

(** [refers path]: a reference by this path in a rule with the parameters [params] has the name. *)
Definition refers (path : list text) : Prop :=
  (In name params /\ path = [name]) \/
  ((forall x, path = [x] -> ~ In x params) /\ exists y, names unicode g path y /\ entity_name y = name).

(** [matched e v l]: [l] are the parts of [v], a result for the expression [e], that belong to references
    with the name, from left to right. Results of negative predicates have no parts. The parts of what
    rules, [push] and parameters match are theirs. *)
Inductive matched : parse_expr -> value -> list value -> Prop :=
| M_here path args v : refers path -> matched (PPath path args) v [v]
| M_elsewhere path args v : ~ refers path -> matched (PPath path args) v []
| M_str t v : matched (PStr t) v []
| M_insens t v : matched (PInsens t) v []
| M_range a b v : matched (PRange a b) v []
| M_positive n v l : matched (n_expr n) v l -> matched (PPosPred n) (VPositive v) l
| M_negative n v : matched (PNegPred n) v []
| M_seq l r t vs ls : matched_fields (PSeq l r t) vs ls -> matched (PSeq l r t) (VSeq vs) ls
| M_choice l r i v ls : matched_variant (PChoice l r) i v ls -> matched (PChoice l r) (VChoice i v) ls
| M_none n : matched (POpt n) (VOpt None) []
| M_some n v l : matched (n_expr n) v l -> matched (POpt n) (VOpt (Some v)) l
| M_rounds e n a b vs ls : repetition e n a b -> matched_rounds (n_expr n) vs ls -> matched e (VRep vs) ls
| M_separated n t v l : matched (n_expr n) v l -> matched (PSeparated n t) v l
with matched_fields : parse_expr -> list value -> list value -> Prop :=
| MF_last e v l : (forall a b t, e <> PSeq a b t) -> matched e v l -> matched_fields e [v] l
| MF_more a b t v vs l l' :
    matched (n_expr a) v l -> matched_fields (n_expr b) vs l' -> matched_fields (PSeq a b t) (v :: vs) (l ++ l')
with matched_variant : parse_expr -> nat -> value -> list value -> Prop :=
| MV_last e v l : (forall a b, e <> PChoice a b) -> matched e v l -> matched_variant e 0 v l
| MV_first a b v l : matched (n_expr a) v l -> matched_variant (PChoice a b) 0 v l
| MV_later a b i v l : matched_variant (n_expr b) i v l -> matched_variant (PChoice a b) (S i) v l
with matched_rounds : parse_expr -> list value -> list value -> Prop :=
| MR_nil e : matched_rounds e [] []
| MR_cons e v vs l l' : matched e v l -> matched_rounds e vs l' -> matched_rounds e (v :: vs) (l ++ l').

(** The name is referred to in the expression, not counting arguments and negative predicates. *)
Inductive mentions : parse_expr -> Prop :=
| Mn_path path args : refers path -> mentions (PPath path args)
| Mn_positive n : mentions (n_expr n) -> mentions (PPosPred n)
| Mn_seq_l l r t : mentions (n_expr l) -> mentions (PSeq l r t)
| Mn_seq_r l r t : mentions (n_expr r) -> mentions (PSeq l r t)
| Mn_choice_l l r : mentions (n_expr l) -> mentions (PChoice l r)
| Mn_choice_r l r : mentions (n_expr r) -> mentions (PChoice l r)
| Mn_opt n : mentions (n_expr n) -> mentions (POpt n)
| Mn_rep e n a b : repetition e n a b -> mentions (n_expr n) -> mentions e
| Mn_separated n t : mentions (n_expr n) -> mentions (PSeparated n t).
End Matched.
