(** How Rust reads the emitted [Rule] enums: their values and the conversions between them.

    An enum is known by the module that contains it. Nothing here depends on how the generator works. *)
From Coq Require Import String List.
From Verif Require Import Model_Text Model_Message Model_Meta Model_Generator Model_Output Spec_Rust.
Import ListNotations.
Open Scope list_scope.

(** A value of an enum: a plain variant, or one that holds a value of another enum. *)
Inductive rvalue := RV (e : list text) (name : text) | RV_in (e : list text) (name : text) (v : rvalue).
Definition enum_of (v : rvalue) : list text := match v with RV e _ => e | RV_in e _ _ => e end.

(** The implementations written in the module at a path. *)
Fixpoint impls_at (items : list (text * ritem)) (m : list text) : option (list rimpl) :=
  match m with
  | [] => None
  | k :: r =>
      match entry k items, r with
      | Some (R_mod _ impls), [] => Some impls
      | Some (R_mod sub _), _ => impls_at sub r
      | _, _ => None
      end
  end.

Section Rules.
Variable items : list (text * ritem).

(** The enum in the module [e] has the variants [vs]. *)
Definition enum_at (e : list text) (vs : list variant) : Prop :=
  exists its, module_at items e = Some its /\ entry (lit "Rule") its = Some (R_enum vs).
(** The path, used in the module [m], names the enum of the module [e]. *)
Definition names_enum (m path e : list text) : Prop :=
  (exists p, path = p ++ [lit "Rule"]) /\ exists vs, resolve items m path = Some (T_item e (R_enum vs)).

(** The values that Rust accepts. *)
Inductive well_typed : rvalue -> Prop :=
| WT_plain e name vs : enum_at e vs -> In (V_plain name) vs -> well_typed (RV e name)
| WT_in e name path vs v :
    enum_at e vs -> In (V_module name path) vs -> names_enum e path (enum_of v) -> well_typed v -> well_typed (RV_in e name v).

(** [v.cvt_into()] is [v']: some module has an implementation of [SubRule] for the type of [v], and the
    variant it applies is one of its [Super]. *)
Definition converts (v v' : rvalue) : Prop :=
  exists m impls self super name e',
    impls_at items m = Some impls /\ In (Impl_sub self super (super ++ [name])) impls /\
    names_enum m self (enum_of v) /\ names_enum m super e' /\ v' = RV_in e' name v.
Inductive converts_times : nat -> rvalue -> rvalue -> Prop :=
| Conv_0 v : converts_times 0 v v
| Conv_S n v v1 v2 : converts_times n v v1 -> converts v1 v2 -> converts_times (S n) v v2.
End Rules.

(** The modules with the enums of the grammar whose types are in [m], of the one that imports it, and so
    on. The types of an imported grammar are two modules below those of the importing one. *)
Fixpoint ancestor (m : list text) (n : nat) : list text :=
  match n with 0 => removelast m | S n => removelast (removelast (ancestor m n)) end.
(** A rule of the grammar in [m] as a value of the [n]th of these enums. *)
Fixpoint rule_value (m : list text) (name : text) (n : nat) : rvalue :=
  match n with
  | 0 => RV (ancestor m 0) name
  | S n' => RV_in (ancestor m n) (last (ancestor m n') []) (rule_value m name n')
  end.
