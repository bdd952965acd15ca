(** Model of [Position::skip_until] as it is compiled with the feature [memchr] (core/src/position.rs L315-359). No manifest declares that feature; without
    it the function is [skip_until] of Model_Position.v. The crate [memchr] is represented by the documented results of its functions. *)
From Coq Require Import List NArith Arith Bool.
From Verif Require Import Model_Text Model_Position.
Import ListNotations.
Open Scope list_scope.

(** [<[u8]>::starts_with], through which [str::starts_with] (core/src/position.rs L333, L347) and [memmem::find] (L321) compare. *)
Definition begins (needle hay : list byte) : bool :=
  match bytes_get hay 0 (length needle) with
  | Some x => bytes_eqb needle x
  | None => false
  end.

(** [memchr::memmem::find] (used at core/src/position.rs L321): the offset of the first occurrence of the needle. *)
Fixpoint memmem_find (hay needle : list byte) : option nat :=
  if begins needle hay then Some 0
  else match hay with
       | [] => None
       | _ :: r => option_map S (memmem_find r needle)
       end.

(** [memchr::memchr2_iter], [memchr::memchr3_iter] (used at core/src/position.rs L330, L344): the offsets, from [o] on, of the bytes that are among [bs]. *)
Fixpoint memchr_iter (bs : list byte) (hay : list byte) (o : nat) : list nat :=
  match hay with
  | [] => []
  | b :: r => if existsb (N.eqb b) bs then o :: memchr_iter bs r (o + 1) else memchr_iter bs r (o + 1)
  end.

(** core/src/position.rs L331-337, L345-351: the loops over these offsets. Slicing the input panics if the offset is not at a character. *)
Fixpoint memchr_loop (s : text) (pos : nat) (strings : list text) (froms : list nat) : outcome (option nat) :=
  match froms with
  | [] => Ret None
  | from :: r =>
      let! start := or_panic (get_from s (pos + from)) in
      if existsb (fun t => begins (bytes t) (bytes start)) strings then Ret (Some (pos + from))
      else memchr_loop s pos strings r
  end.

(** [s.is_empty()] (used at core/src/position.rs L327, L339). *)
Definition is_empty (t : text) : bool := match t with [] => true | _ => false end.
(** [s.as_bytes()[0]] (used at core/src/position.rs L328-329, L340-342), which panics for an empty string. *)
Definition first_byte (t : text) : outcome byte := match bytes t with b :: _ => Ret b | [] => Panic end.

(** core/src/position.rs L357-358: nothing was found. *)
Definition found (s : text) (o : option nat) : bool * nat := match o with Some p => (true, p) | None => (false, blen s) end.

(** core/src/position.rs L310-360 [Position::skip_until] with the feature [memchr]. In the case of three strings the third has to be empty (L339), and its byte is
    taken from the second (L342). *)
Definition skip_until_memchr (s : text) (pos : nat) (strings : list text) : outcome (bool * nat) :=
  match strings with
  | [] => Ret (found s None)
  | [s1] =>
      if blen s <? pos then Panic
      else Ret (found s (option_map (Nat.add pos) (memmem_find (skipn pos (bytes s)) (bytes s1))))
  | [s1; s2] =>
      if negb (is_empty s1) && negb (is_empty s2) then
        let! b1 := first_byte s1 in
        let! b2 := first_byte s2 in
        if blen s <? pos then Panic
        else
          let! o := memchr_loop s pos [s1; s2] (memchr_iter [b1; b2] (skipn pos (bytes s)) 0) in
          Ret (found s o)
      else Ret (skip_until s pos strings)
  | [s1; s2; s3] =>
      if negb (is_empty s1) && negb (is_empty s2) && is_empty s3 then
        let! b1 := first_byte s1 in
        let! b2 := first_byte s2 in
        let! b3 := first_byte s2 in
        if blen s <? pos then Panic
        else
          let! o := memchr_loop s pos [s1; s2; s3] (memchr_iter [b1; b2; b3] (skipn pos (bytes s)) 0) in
          Ret (found s o)
      else Ret (skip_until s pos strings)
  | _ => Ret (skip_until s pos strings)
  end.
