(** The Rust items that the generator emits: generator/src/typed/output.rs.

    Simplifications as in Model_Generator.v; an item is a name with a tree. Implementations of traits
    belong to the item they implement, except those that relate the [Rule] of a module with that of an
    imported one. *)
From Coq Require Import String List NArith ZArith Arith Bool.
From Verif Require Import Model_Text Model_Message Model_Meta Model_Import Model_Generator.
Import ListNotations.
Open Scope list_scope.

(** generator/src/typed/output.rs L241-248 [impl SubRule for name::Rule], with the paths of the type, of
    its [Super] and of the variant that [cvt_into] applies; and, from the other side,
    generator/src/common.rs L78-86 [impl SuperRule]. *)
Inductive rimpl :=
| Impl_sub (self super variant : list text)
| Impl_super (self sub variant : list text).

(** Items: modules; structs of rules; type aliases with the lifetime ['i]; string constants; the enum
    [Rule]; re-exports of a path of the crate [::pest3]; sequence and choice types of some arity. *)
Inductive ritem :=
| R_mod (items : list (text * ritem)) (impls : list rimpl)
| R_struct (s : gstruct)
| R_alias (t : ty)
| R_string (content : text)
| R_enum (variants : list variant)
| R_use (path : list text)
| R_seq (arity : nat)
| R_choice (arity : nat).

(** A path of the template module (generator/src/typed/output.rs L151, L218, L222). *)
Definition template_path (name : text) : list text := [pest_crate; lit "typed"; lit "template"; name].

(** The names re-exported at generator/src/typed/output.rs L151-172. *)
Definition template_names : list text := map lit
  ["Positive"; "Negative"; "CharRange"; "Str"; "Insens"; "Rep"; "RepOnce"; "RepMin"; "RepMax"; "RepMinMax";
   "soi"; "eoi"; "any"; "peek"; "PeekSlice1"; "PeekSlice2"; "peek_all"; "drop"; "push"; "pop"; "pop_all";
   "ascii_digit"; "ascii_nonzero_digit"; "ascii_bin_digit"; "ascii_oct_digit"; "ascii_hex_digit";
   "ascii_alpha_lower"; "ascii_alpha_upper"; "ascii_alpha"; "ascii_alphanumeric"; "ascii"; "newline"]%string.

(** generator/src/typed/output.rs L91-128 [fill]: one item per arity, defined in place if it is larger
    than 16 and re-exported otherwise. *)
Definition fill (prefix module : text) (define : nat -> ritem) (arities : list nat) : list (text * ritem) :=
  map (fun n =>
    let name := prefix ++ decimal n in
    (name, if 16 <? n then define n else R_use [pest_crate; module; name])) arities.

(** generator/src/typed/output.rs L87-186 [Tracker::collect]. *)
Definition collect_tracker (t : gtracker) : list (text * ritem) :=
  [(wrapper_mod, R_mod (map (fun ws => (fst ws, R_string (snd ws))) (gt_wrappers t)) []);
   (lit "unicode", R_use [pest_crate; lit "typed"; lit "unicode"]);
   (generics_mod, R_mod (map (fun n => (n, R_use (template_path n))) template_names ++
                         fill (lit "Sequence") (lit "sequence") R_seq (gt_seqs t) ++
                         fill (lit "Choice") (lit "choice") R_choice (gt_choices t)) [])].

(** generator/src/typed/output.rs L20-25 [types_mod]. *)
Definition types_mod (rules_mod : option text) : text := match rules_mod with Some n => n | None => lit "rules" end.
(** generator/src/typed/output.rs L231-238: the type of a trivia. *)
Definition trivia_type (t : option ty) : ty := match t with Some t => t | None => Ty (template_path (lit "Empty")) [] end.

(** generator/src/typed/output.rs L226-271 [Output::collect]: the items, and the implementations that
    belong to the enum (generator/src/common.rs L74-88). *)
Fixpoint collect_output (rules_mod : option text) (o : output) : list (text * ritem) * list rimpl :=
  let 'mkOutput content optional mandatory modules variants := o in
  let children :=
    (fix go (l : list (text * output)) : list (text * ritem) :=
       match l with
       | [] => []
       | (name, o) :: r => let (items, impls) := collect_output rules_mod o in (name, R_mod items impls) :: go r
       end) modules in
  let subs := map (fun no => Impl_sub [fst no; lit "Rule"] [lit "super"; lit "Rule"] [lit "super"; lit "Rule"; fst no]) modules in
  ([(lit "Rule", R_enum variants);
    (types_mod rules_mod,
     R_mod ([(lit "__OptionalTrivia", R_alias (trivia_type optional));
             (lit "__MandatoryTrivia", R_alias (trivia_type mandatory))] ++
            children ++ map (fun s => (gs_name s, R_struct s)) content) subs)],
   flat_map (fun v => match v with
                      | V_module name path => [Impl_super [lit "Rule"] path [lit "Self"; name]]
                      | V_plain _ => []
                      end) variants).

(** generator/src/typed/generator.rs L946-983 [generate_typed], after the inlining of silent rules: all
    items of the expansion. Left out: the constant that includes the grammar files and
    [impl TypedParser]. *)
Definition generate_items (config : gconfig) (fuel : nat) (names : list text) (g : gmodule) : outcome (list (text * ritem)) :=
  let! (o, tr) := generate_output config fuel names g in
  Ret (fst (collect_output (rules_mod config) o) ++ collect_tracker tr).
