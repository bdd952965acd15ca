(** The relation of Spec_Peg.v with everything a parse produces besides acceptance: the value (the
    concrete tree), the stack of spans instead of the stack of texts, and the list of the attempts
    that are of interest for an error report.

    [run chain positive n pre post K res tr]: expression [n], tried inside the rules [chain]
    (innermost first, each with its start offset) in a positive or negative context, has result
    [res] and makes the attempts [tr], oldest first. *)
From Coq Require Import List NArith ZArith Arith Bool.
From Verif Require Import Model_Text Model_Position Model_Tracker Model_Node Spec_Text Spec_Peg.
Import ListNotations.
Open Scope list_scope.

Inductive rresult (V : Type) := RFail | ROk (pre post : text) (K : list span) (v : V).
Arguments RFail {V}.
Arguments ROk {V}.

(** What a report can mention: a rule in which no other rule was tried, or a misuse of the stack. *)
Inductive event :=
| Attempt (chain : list (rule * nat)) (r : rule) (at_ : nat) (positive succeeded : bool)
| Special (chain : list (rule * nat)) (at_ : nat) (e : special_error).

(** Some rule was tried. *)
Definition tried_rule (tr : list event) : bool :=
  existsb (fun e => match e with Attempt _ _ _ _ _ => true | Special _ _ _ => false end) tr.

(** A span denotes the text [t] of its own input. *)
Definition span_text (sp : span) (t : text) : Prop :=
  exists a b, sp_input sp = a ++ t ++ b /\ sp_start sp = blen a /\ sp_end sp = blen (a ++ t).

(** The stack after a successful terminal. *)
Definition terminal_stack (n : node) (K : list span) : list span :=
  match n with
  | Pop | Drop => tl K
  | PopAll => []
  | _ => K
  end.

(** [i] is an admissible index into a stack of [len] elements. *)
Definition admissible (len : nat) (i : Z) : bool :=
  ((- Z.of_nat len <=? i) && (i <=? Z.of_nat len))%Z.

(** Misuses of the stack by a terminal. *)
Definition terminal_misuse (n : node) (K : list span) : list special_error :=
  match n with
  | Peek | Pop | Drop => match K with [] => [EmptyStack] | _ => [] end
  | PeekSlice2 a b =>
      if admissible (length K) a && admissible (length K) b then []
      else [SliceOutOfBound a (Some b)]
  | PeekSlice1 a => if admissible (length K) a then [] else [SliceOutOfBound a None]
  | _ => []
  end.

(** The nodes of a sequence and of a round, with the information which of them are kept in the
    value. *)
Definition kept_fields (fields : list (node * node)) : list (bool * node) :=
  match fields with
  | [] => []
  | (t, _) :: r => (true, t) :: flat_map (fun f => [(false, snd f); (true, fst f)]) r
  end.
Definition kept_round (t trivia : node) (i : N) : list (bool * node) :=
  if N.eq_dec i 0 then [(true, t)] else [(false, trivia); (true, t)].
Definition keep (b : bool) (v : value) (vs : list value) : list value := if b then v :: vs else vs.

Section Run.
Variable addr : N.
Variable s : text.
Variable env : rule -> rule_def.
Variable property : N -> char -> bool.

(** The span of the input from after [pre] to after [pre']. *)
Definition span_to (pre pre' : text) : span := mkSpan addr s (blen pre) (blen pre').

(** The value of a terminal that consumed [m] after [pre] with the stack [K]. *)
Definition terminal_value (n : node) (pre m : text) (K : list span) : value :=
  match n with
  | Insens _ => VInsens m
  | SkipChar _ | PeekAll | Peek | PopAll => VSpan (span_to pre (pre ++ m))
  | CharRange _ _ | Any | Property _ => match m with c :: _ => VChar c | [] => VUnit end
  | Newline =>
      match m with
      | [c] => if N.eq_dec c LF then VNewline NL_LF else VNewline NL_CR
      | _ => VNewline NL_CRLF
      end
  | Pop => match K with sp :: _ => VSpan sp | [] => VUnit end
  | _ => VUnit
  end.

Inductive run : list (rule * nat) -> bool -> node -> text -> text -> list span ->
  rresult value -> list event -> Prop :=
| U_terminal_ok chain pol n pre post K Ks m post' Ks' :
    Forall2 span_text K Ks -> terminal property pre post Ks n (Ok (pre ++ m) post' Ks') ->
    run chain pol n pre post K
      (ROk (pre ++ m) post' (terminal_stack n K) (terminal_value n pre m K)) []
| U_terminal_fail chain pol n pre post K Ks :
    Forall2 span_text K Ks -> terminal property pre post Ks n Fail ->
    run chain pol n pre post K RFail (map (Special chain (blen pre)) (terminal_misuse n K))
| U_positive_ok chain pol t pre post K pre' post' K' v tr :
    run chain true t pre post K (ROk pre' post' K' v) tr ->
    run chain pol (Positive t) pre post K (ROk pre post K (VPositive v)) tr
| U_positive_fail chain pol t pre post K tr :
    run chain true t pre post K RFail tr -> run chain pol (Positive t) pre post K RFail tr
| U_negative_ok chain pol t pre post K tr :
    run chain false t pre post K RFail tr ->
    run chain pol (Negative t) pre post K (ROk pre post K VUnit) tr
| U_negative_fail chain pol t pre post K pre' post' K' v tr :
    run chain false t pre post K (ROk pre' post' K' v) tr ->
    run chain pol (Negative t) pre post K RFail tr
| U_push_ok chain pol t pre post K pre' post' K' v tr :
    run chain pol t pre post K (ROk pre' post' K' v) tr ->
    run chain pol (Push t) pre post K (ROk pre' post' (span_to pre pre' :: K') (VPush v)) tr
| U_push_fail chain pol t pre post K tr :
    run chain pol t pre post K RFail tr -> run chain pol (Push t) pre post K RFail tr
| U_opt_some chain pol t pre post K pre' post' K' v tr :
    run chain pol t pre post K (ROk pre' post' K' v) tr ->
    run chain pol (Opt t) pre post K (ROk pre' post' K' (VOpt (Some v))) tr
| U_opt_none chain pol t pre post K tr :
    run chain pol t pre post K RFail tr ->
    run chain pol (Opt t) pre post K (ROk pre post K (VOpt None)) tr
| U_rep_ok chain pol t trivia min max pre post K pre' post' K' vs tr :
    run_rep chain pol t trivia min max 0 pre post K (ROk pre' post' K' vs) tr ->
    run chain pol (RepMinMax t trivia min max) pre post K (ROk pre' post' K' (VRep vs)) tr
| U_rep_fail chain pol t trivia min max pre post K tr :
    run_rep chain pol t trivia min max 0 pre post K RFail tr ->
    run chain pol (RepMinMax t trivia min max) pre post K RFail tr
| U_seq_ok chain pol fields pre post K pre' post' K' vs tr :
    run_items chain pol (kept_fields fields) pre post K (ROk pre' post' K' vs) tr ->
    run chain pol (Seq fields) pre post K (ROk pre' post' K' (VSeq vs)) tr
| U_seq_fail chain pol fields pre post K tr :
    run_items chain pol (kept_fields fields) pre post K RFail tr ->
    run chain pol (Seq fields) pre post K RFail tr
| U_choice chain pol ts pre post K r tr :
    run_choice chain pol 0 ts pre post K r tr -> run chain pol (Choice ts) pre post K r tr
| U_rule_ok chain pol r args pre post K pre' post' K' v tr :
    run ((r, blen pre) :: chain) pol (rd_body (env r) args) pre post K (ROk pre' post' K' v) tr ->
    run chain pol (Rule r args) pre post K (ROk pre' post' K' (VRule r v (span_to pre pre')))
      (tr ++ (if tried_rule tr then [] else [Attempt chain r (blen pre) pol true]))
| U_rule_fail chain pol r args pre post K tr :
    run ((r, blen pre) :: chain) pol (rd_body (env r) args) pre post K RFail tr ->
    run chain pol (Rule r args) pre post K RFail
      (tr ++ (if tried_rule tr then [] else [Attempt chain r (blen pre) pol false]))

with run_items : list (rule * nat) -> bool -> list (bool * node) -> text -> text -> list span ->
  rresult (list value) -> list event -> Prop :=
| UI_nil chain pol pre post K : run_items chain pol [] pre post K (ROk pre post K []) []
| UI_cons chain pol b t ts pre post K pre' post' K' v tr pre'' post'' K'' vs tr' :
    run chain pol t pre post K (ROk pre' post' K' v) tr ->
    run_items chain pol ts pre' post' K' (ROk pre'' post'' K'' vs) tr' ->
    run_items chain pol ((b, t) :: ts) pre post K (ROk pre'' post'' K'' (keep b v vs)) (tr ++ tr')
| UI_later chain pol b t ts pre post K pre' post' K' v tr tr' :
    run chain pol t pre post K (ROk pre' post' K' v) tr ->
    run_items chain pol ts pre' post' K' RFail tr' ->
    run_items chain pol ((b, t) :: ts) pre post K RFail (tr ++ tr')
| UI_fail chain pol b t ts pre post K tr :
    run chain pol t pre post K RFail tr ->
    run_items chain pol ((b, t) :: ts) pre post K RFail tr

with run_choice : list (rule * nat) -> bool -> nat -> list node -> text -> text -> list span ->
  rresult value -> list event -> Prop :=
| UC_nil chain pol i pre post K : run_choice chain pol i [] pre post K RFail []
| UC_ok chain pol i t ts pre post K pre' post' K' v tr :
    run chain pol t pre post K (ROk pre' post' K' v) tr ->
    run_choice chain pol i (t :: ts) pre post K (ROk pre' post' K' (VChoice i v)) tr
| UC_next chain pol i t ts pre post K r tr tr' :
    run chain pol t pre post K RFail tr -> run_choice chain pol (S i) ts pre post K r tr' ->
    run_choice chain pol i (t :: ts) pre post K r (tr ++ tr')

with run_rep : list (rule * nat) -> bool -> node -> node -> N -> N -> N -> text -> text ->
  list span -> rresult (list value) -> list event -> Prop :=
| UR_max chain pol t trivia min max i pre post K :
    (max <= i)%N -> run_rep chain pol t trivia min max i pre post K (ROk pre post K []) []
| UR_round chain pol t trivia min max i pre post K pre' post' K' vs tr pre'' post'' K'' vs' tr' :
    (i < max)%N ->
    run_items chain pol (kept_round t trivia i) pre post K (ROk pre' post' K' vs) tr ->
    run_rep chain pol t trivia min max (i + 1) pre' post' K' (ROk pre'' post'' K'' vs') tr' ->
    run_rep chain pol t trivia min max i pre post K (ROk pre'' post'' K'' (vs ++ vs')) (tr ++ tr')
| UR_later chain pol t trivia min max i pre post K pre' post' K' vs tr tr' :
    (i < max)%N ->
    run_items chain pol (kept_round t trivia i) pre post K (ROk pre' post' K' vs) tr ->
    run_rep chain pol t trivia min max (i + 1) pre' post' K' RFail tr' ->
    run_rep chain pol t trivia min max i pre post K RFail (tr ++ tr')
| UR_stop chain pol t trivia min max i pre post K tr :
    (i < max)%N -> (min <= i)%N ->
    run_items chain pol (kept_round t trivia i) pre post K RFail tr ->
    run_rep chain pol t trivia min max i pre post K (ROk pre post K []) tr
| UR_fail chain pol t trivia min max i pre post K tr :
    (i < max)%N -> (i < min)%N ->
    run_items chain pol (kept_round t trivia i) pre post K RFail tr ->
    run_rep chain pol t trivia min max i pre post K RFail tr.
End Run.

Scheme run_mut := Induction for run Sort Prop
with run_items_mut := Induction for run_items Sort Prop
with run_choice_mut := Induction for run_choice Sort Prop
with run_rep_mut := Induction for run_rep Sort Prop.
Combined Scheme run_mutind from run_mut, run_items_mut, run_choice_mut, run_rep_mut.
