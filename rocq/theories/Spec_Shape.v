(** Which shape the types of accessor functions should have.

    Nothing here depends on how the generator works out the accessors: [shaped] walks along the grammar. *)
From Coq Require Import List.
From Verif Require Import Model_Text Model_Meta Model_Import Model_Output Model_Generator Spec_Grammar_Peg Spec_Getter.
Import ListNotations.
Open Scope list_scope.

(** The type that an accessor returns, leaving out which type is referred to. *)
Inductive shape :=
| Sh_ref
| Sh_option (s : shape)
| Sh_vec (s : shape)
| Sh_tuple (l : list shape).
Fixpoint shape_of (t : gtype) : shape :=
  match t with
  | Y_ref _ => Sh_ref
  | Y_option t => Sh_option (shape_of t)
  | Y_vec t => Sh_vec (shape_of t)
  | Y_tuple l => Sh_tuple (map shape_of l)
  end.

(** What may be missing is in an option, and an option is not put in another one. *)
Definition optional (s : shape) : shape := match s with Sh_option _ => s | _ => Sh_option s end.
(** Several ones make a tuple, a single one does not. *)
Definition together (l : list shape) : shape := match l with [s] => s | _ => Sh_tuple l end.

Section Shaped.
Variable unicode : list text.
Variable g : gmodule.
Variable params : list text.
Variable name : text.
Notation mentions := (mentions unicode g params name).

(** [shaped e s]: the accessor for the name in a rule with the body [e] returns something of the shape
    [s]. Operands that do not mention the name do not count. *)
Inductive shaped : parse_expr -> shape -> Prop :=
| Sp_path path args : refers unicode g params name path -> shaped (PPath path args) Sh_ref
| Sp_positive n s : shaped (n_expr n) s -> shaped (PPosPred n) s
| Sp_seq l r t ss : shaped_fields (PSeq l r t) ss -> ss <> [] -> shaped (PSeq l r t) (together ss)
| Sp_choice l r ss : shaped_variants (PChoice l r) ss -> ss <> [] -> shaped (PChoice l r) (together (map optional ss))
| Sp_opt n s : shaped (n_expr n) s -> shaped (POpt n) (optional s)
| Sp_rounds e n a b s : repetition e n a b -> shaped (n_expr n) s -> shaped e (Sh_vec s)
| Sp_separated n t s : shaped (n_expr n) s -> shaped (PSeparated n t) s
(** The shapes for the operands of a sequence that mention the name. *)
with shaped_fields : parse_expr -> list shape -> Prop :=
| SF_last e s : (forall a b t, e <> PSeq a b t) -> shaped e s -> shaped_fields e [s]
| SF_last_not e : (forall a b t, e <> PSeq a b t) -> ~ mentions e -> shaped_fields e []
| SF_more a b t s ss : shaped (n_expr a) s -> shaped_fields (n_expr b) ss -> shaped_fields (PSeq a b t) (s :: ss)
| SF_more_not a b t ss : ~ mentions (n_expr a) -> shaped_fields (n_expr b) ss -> shaped_fields (PSeq a b t) ss
(** The same for choices. *)
with shaped_variants : parse_expr -> list shape -> Prop :=
| SV_last e s : (forall a b, e <> PChoice a b) -> shaped e s -> shaped_variants e [s]
| SV_last_not e : (forall a b, e <> PChoice a b) -> ~ mentions e -> shaped_variants e []
| SV_more a b s ss : shaped (n_expr a) s -> shaped_variants (n_expr b) ss -> shaped_variants (PChoice a b) (s :: ss)
| SV_more_not a b ss : ~ mentions (n_expr a) -> shaped_variants (n_expr b) ss -> shaped_variants (PChoice a b) ss.
End Shaped.

(** No option is directly in an option, and tuples have at least two components. *)
Fixpoint plain (s : shape) : Prop :=
  match s with
  | Sh_ref => True
  | Sh_option s => (forall s', s <> Sh_option s') /\ plain s
  | Sh_vec s => plain s
  | Sh_tuple l => 2 <= length l /\ fold_right (fun s p => plain s /\ p) True l
  end.
