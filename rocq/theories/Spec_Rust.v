(** How Rust reads the emitted items: the resolution of paths, and the node that a type stands for.

    Nothing here depends on how the generator works. [library] is the part of the crate [::pest3] that
    types can mention: each name with the generic parameters its definition declares
    (core/src/typed/template/mod.rs, repetition.rs, core/src/sequence.rs, core/src/choice.rs,
    core/src/typed/unicode.rs, core/src/lib.rs). A program that Rust rejects because a name is missing,
    ambiguous or applied to the wrong kind of arguments has no reading ([None]). *)
From Coq Require Import String List NArith ZArith Arith Bool.
From Verif Require Import Model_Text Model_Message Model_Meta Model_Tracker Model_Node Model_Generator Model_Output.
Import ListNotations.
Open Scope list_scope.

(** The only entry with the given name; two definitions of a name are an error. *)
Definition entry {A : Type} (k : text) (l : list (text * A)) : option A :=
  match filter (fun kv => text_eqb k (fst kv)) l with [(_, v)] => Some v | _ => None end.

(** The items of the module at a path from the top. *)
Fixpoint module_at (items : list (text * ritem)) (m : list text) : option (list (text * ritem)) :=
  match m with
  | [] => Some items
  | k :: r => match entry k items with Some (R_mod sub _) => module_at sub r | _ => None end
  end.

(** What a path denotes: an item together with the module that contains it, or a path of [::pest3]. *)
Inductive target := T_item (m : list text) (i : ritem) | T_library (path : list text).

(** Following a path down from the module [m] with the given items. *)
Fixpoint descend (m : list text) (items : list (text * ritem)) (path : list text) : option target :=
  match path with
  | [] => None
  | k :: r =>
      match entry k items, r with
      | Some (R_use p), _ => Some (T_library (p ++ r))
      | Some i, [] => Some (T_item m i)
      | Some (R_mod sub _), _ => descend (m ++ [k]) sub r
      | _, _ => None
      end
  end.

(** A path used in the module [m]: [super] is the parent, [::pest3] the crate. *)
Fixpoint resolve (items : list (text * ritem)) (m path : list text) : option target :=
  match path with
  | [] => None
  | k :: r =>
      if text_eqb k pest_crate then Some (T_library path)
      else if text_eqb k (lit "super") then match m with [] => None | _ => resolve items (removelast m) r end
      else match module_at items m with Some sub => descend m sub path | None => None end
  end.

(** What a type stands for: a node, or (for the constants used as type arguments) a text; and a generic
    argument. *)
Inductive meaning := M_node (n : node) | M_text (s : text).
Inductive argument := Arg_life | Arg (m : meaning) | Arg_char (c : char) | Arg_usize (n : N) | Arg_isize (z : Z).

(** Consecutive pairs of types. *)
Fixpoint node_pairs (args : list argument) : option (list (node * node)) :=
  match args with
  | [] => Some []
  | Arg (M_node t) :: Arg (M_node tr) :: r =>
      match node_pairs r with Some l => Some ((t, tr) :: l) | None => None end
  | _ => None
  end.
(** Types only. *)
Fixpoint nodes (args : list argument) : option (list node) :=
  match args with
  | [] => Some []
  | Arg (M_node t) :: r => match nodes r with Some l => Some (t :: l) | None => None end
  | _ => None
  end.

(** A sequence type of the given arity takes a type and a trivia type for each field, a choice type a
    type for each variant. *)
Definition sequence_node (arity : nat) (args : list argument) : option node :=
  match node_pairs args with Some l => if length l =? arity then Some (Seq l) else None | None => None end.
Definition choice_node (arity : nat) (args : list argument) : option node :=
  match nodes args with Some l => if length l =? arity then Some (Choice l) else None | None => None end.

(** The arities defined in core/src/sequence.rs L105-298 and core/src/choice.rs L105-298. *)
Definition library_arities : list nat := seq 2 15.

(** A type without parameters, with one lifetime, with one type, with a type and a trivia type. *)
Definition plain (n : node) (args : list argument) : option node := match args with [] => Some n | _ => None end.
Definition with_life (n : node) (args : list argument) : option node := match args with [Arg_life] => Some n | _ => None end.
Definition with_type (f : node -> node) (args : list argument) : option node :=
  match args with [Arg (M_node n)] => Some (f n) | _ => None end.
Definition with_trivia (f : node -> node -> node) (args : list argument) : option node :=
  match args with [Arg (M_node n); Arg (M_node tr)] => Some (f n tr) | _ => None end.

(** core/src/typed/template/mod.rs and repetition.rs: the types the generator mentions. *)
Definition template : list (text * (list argument -> option node)) := [
  (lit "Empty", plain Empty);
  (lit "Str", fun args => match args with [Arg (M_text s)] => Some (Str s) | _ => None end);
  (lit "Insens", fun args => match args with [Arg_life; Arg (M_text s)] => Some (Insens s) | _ => None end);
  (lit "CharRange", fun args => match args with [Arg_char a; Arg_char b] => Some (CharRange a b) | _ => None end);
  (lit "Positive", with_type Positive);
  (lit "Negative", with_type Negative);
  (lit "push", with_type Push);
  (lit "Rep", with_trivia Rep);
  (lit "RepOnce", with_trivia RepOnce);
  (lit "RepMin", fun args => match args with [Arg (M_node n); Arg (M_node tr); Arg_usize a] => Some (RepMin n tr a) | _ => None end);
  (lit "RepMax", fun args => match args with [Arg (M_node n); Arg (M_node tr); Arg_usize b] => Some (RepMax n tr b) | _ => None end);
  (lit "RepMinMax", fun args =>
     match args with [Arg (M_node n); Arg (M_node tr); Arg_usize a; Arg_usize b] => Some (RepMinMax n tr a b) | _ => None end);
  (lit "soi", plain Soi); (lit "eoi", plain Eoi); (lit "any", plain Any); (lit "newline", plain Newline);
  (lit "drop", plain Drop);
  (lit "peek", with_life Peek); (lit "peek_all", with_life PeekAll); (lit "pop", with_life Pop); (lit "pop_all", with_life PopAll);
  (lit "PeekSlice1", fun args => match args with [Arg_isize a] => Some (PeekSlice1 a) | _ => None end);
  (lit "PeekSlice2", fun args => match args with [Arg_isize a; Arg_isize b] => Some (PeekSlice2 a b) | _ => None end);
  (lit "ascii_digit", plain ascii_digit); (lit "ascii_nonzero_digit", plain ascii_nonzero_digit);
  (lit "ascii_bin_digit", plain ascii_bin_digit); (lit "ascii_oct_digit", plain ascii_oct_digit);
  (lit "ascii_hex_digit", plain ascii_hex_digit); (lit "ascii_alpha_lower", plain ascii_alpha_lower);
  (lit "ascii_alpha_upper", plain ascii_alpha_upper); (lit "ascii_alpha", plain ascii_alpha);
  (lit "ascii_alphanumeric", plain ascii_alphanumeric); (lit "ascii", plain ascii)].

(** The position of a name in a list. *)
Fixpoint index_of (k : text) (l : list text) : option nat :=
  match l with
  | [] => None
  | x :: r => if text_eqb k x then Some 0 else match index_of k r with Some i => Some (S i) | None => None end
  end.

(** The type of arity [n] with the given prefix in its name, for one of the arities. *)
Definition of_arity (prefix name : text) (arities : list nat) : option nat :=
  find (fun n => text_eqb name (prefix ++ decimal n)) arities.

Section Reading.
(** The items of the expansion, the names of the Unicode properties as pest2 lists them, and the
    numbering of the structs by module and name. *)
Variable items : list (text * ritem).
Variable unicode : list text.
Variable id : list text -> text -> rule.

(** ASCII letters in upper case. *)
Definition capital (c : char) : char := if ((96 <? c) && (c <? 123))%N then (c - 32)%N else c.
(** A type of [::pest3] applied to arguments. core/src/typed/unicode.rs defines one type for each
    property, in upper case. *)
Definition library (path : list text) (args : list argument) : option node :=
  match path with
  | [c; a; b] =>
      if text_eqb c pest_crate then
        if text_eqb a (lit "std") then if text_eqb b (lit "Option") then with_type Opt args else None
        else if text_eqb a (lit "sequence") then
          match of_arity (lit "Sequence") b library_arities with Some n => sequence_node n args | None => None end
        else if text_eqb a (lit "choice") then
          match of_arity (lit "Choice") b library_arities with Some n => choice_node n args | None => None end
        else None
      else None
  | [c; a; b; d] =>
      if text_eqb c pest_crate && text_eqb a (lit "typed") then
        if text_eqb b (lit "template") then match entry d template with Some f => f args | None => None end
        else if text_eqb b (lit "unicode") then
          match index_of d (map (map capital) unicode) with Some i => plain (Property (N.of_nat i)) args | None => None end
        else None
      else None
  | _ => None
  end.

(** All elements, if all are there. *)
Fixpoint all_some {A : Type} (l : list (option A)) : option (list A) :=
  match l with
  | [] => Some []
  | Some a :: r => match all_some r with Some l => Some (a :: l) | None => None end
  | None :: _ => None
  end.

(** The reading of a type used in the module [m] where the type parameters [params] are in scope; the
    fuel bounds the nesting of types and of aliases. A parameter shadows an item of the same name. *)
Fixpoint read_type (fuel : nat) (m : list text) (params : list (text * node)) (t : ty) : option meaning :=
  match fuel with
  | 0 => None
  | S fuel =>
      let 'Ty path args := t in
      match path with
      | [] => None
      | k :: r =>
          match lookup k params with
          | Some n => match r, args with [], [] => Some (M_node n) | _, _ => None end
          | None =>
              match all_some (map (fun a =>
                match a with
                | A_life => Some Arg_life
                | A_type t => match read_type fuel m params t with Some d => Some (Arg d) | None => None end
                | A_char c => Some (Arg_char c)
                | A_usize n => Some (Arg_usize n)
                | A_isize z => Some (Arg_isize z)
                end) args) with
              | None => None
              | Some dargs =>
                  let node o := match o with Some n => Some (M_node n) | None => None end in
                  match resolve items m path with
                  | Some (T_library p) => node (library p dargs)
                  | Some (T_item m' (R_struct s)) =>
                      match dargs with
                      | Arg_life :: targs =>
                          match nodes targs with
                          | Some ns => if length ns =? length (gs_params s) then Some (M_node (Rule (id m' (gs_name s)) ns)) else None
                          | None => None
                          end
                      | _ => None
                      end
                  | Some (T_item m' (R_alias t')) =>
                      match dargs with [Arg_life] => read_type fuel m' [] t' | _ => None end
                  | Some (T_item _ (R_string s)) => match dargs with [] => Some (M_text s) | _ => None end
                  | Some (T_item _ (R_seq n)) => node (sequence_node n dargs)
                  | Some (T_item _ (R_choice n)) => node (choice_node n dargs)
                  | _ => None
                  end
              end
          end
      end
  end.

(** The rules of the expansion: for each struct, the node that its content type stands for once its
    parameters are replaced by nodes. [id] tells the structs apart. *)
Definition is_struct (m : list text) (s : gstruct) : Prop :=
  exists sub, module_at items m = Some sub /\ entry (gs_name s) sub = Some (R_struct s).
Definition reads_rules (env : rule -> rule_def) : Prop :=
  (forall m s m' s', is_struct m s -> is_struct m' s' -> id m (gs_name s) = id m' (gs_name s') -> m = m' /\ s = s') /\
  forall m s, is_struct m s ->
    rd_silent (env (id m (gs_name s))) = gs_silent s /\
    forall ns, length ns = length (gs_params s) ->
      exists fuel, read_type fuel m (combine (gs_params s) ns) (gs_inner s) = Some (M_node (rd_body (env (id m (gs_name s))) ns)).
End Reading.
