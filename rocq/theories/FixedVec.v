(** The elements of arrays that are decoded: FixedVec, crates/musli-core/src/internal/fixed.rs, and how arrays use it,
    crates/musli-core/src/impls/mod.rs. With destructors. *)
From Verif Require Import Base System.

(** fixed.rs:21-24: the cells, [None] where they are not initialised, and the length *)
Record fvec := mkfv { f_cells : list (option item); f_len : nat }.

(** new, fixed.rs:28-35 *)
Definition fvec_new (n : nat) : fvec := mkfv (repeat None n) 0.

(** as_slice, fixed.rs:47-50: undefined behaviour where there are no initialised elements. *)
Definition fvec_items (v : fvec) : sout (list item) :=
  if Nat.ltb (length (f_cells v)) (f_len v) then SUndef
  else match all_some (firstn (f_len v) (f_cells v)) with Some xs => SDone xs | None => SUndef end.

(** try_push, fixed.rs:58-69: the element is dropped when there is no room. The last part is what is destroyed. *)
Definition fvec_try_push (n : nat) (v : fvec) (x : item) : sout (bool * fvec * list item) :=
  if Nat.leb n (f_len v) then SDone (false, v, [x])
  else if Nat.ltb (f_len v) (length (f_cells v)) then SDone (true, mkfv (set_at (f_cells v) (f_len v) (Some x)) (S (f_len v)), [])
  else SUndef.

(** clear, fixed.rs:71-84, which is what drop does, fixed.rs:117-122. Types without destructors are not read. *)
Definition fvec_clear (needs_drop : bool) (v : fvec) : sout (fvec * list item) :=
  if Nat.eqb (f_len v) 0 then SDone (v, [])
  else if needs_drop then let? xs := fvec_items v in SDone (mkfv (f_cells v) 0, xs)
  else SDone (mkfv (f_cells v) 0, []).

(** into_inner, fixed.rs:86-98: all cells are read. The vector is not dropped. *)
Definition fvec_into_inner (n : nat) (v : fvec) : sout (list item) :=
  if negb (Nat.eqb (f_len v) n) then SPanic
  else match all_some (f_cells v) with Some xs => SDone xs | None => SUndef end.

(** An element that is destroyed shows if it has a destructor. *)
Definition destroyed (needs_drop : bool) (xs : list item) : list item := if needs_drop then xs else [].

(** [?] drops the array. *)
Definition array_fails (needs_drop : bool) (v : fvec) (log : list item) : sout (option (list item) * list item) :=
  let? (_, xs) := fvec_clear needs_drop v in SDone (None, log ++ xs).

(** The loop of [Decode for [T; N]], impls/mod.rs:251-268, for a decoder that gives these elements, and [None] for an error
    of the decoder *)
Fixpoint array_loop (needs_drop : bool) (n : nat) (v : fvec) (outs : list (option item)) (log : list item) : sout (option (list item) * list item) :=
  match outs with
  | [] =>
      if negb (Nat.eqb (f_len v) n) then array_fails needs_drop v log
      else let? xs := fvec_into_inner n v in SDone (Some xs, log)
  | None :: _ => array_fails needs_drop v log
  | Some x :: r =>
      let? (a, l) := fvec_try_push n v x in
      let '(ok, v) := a : bool * fvec in
      let log := log ++ destroyed needs_drop l in
      if negb ok then array_fails needs_drop v log else array_loop needs_drop n v r log
  end.
Definition decode_array (needs_drop : bool) (n : nat) (outs : list (option item)) := array_loop needs_drop n (fvec_new n) outs [].

(** The loop of [DecodePacked for [T; N]], impls/mod.rs:304-313: elements are asked for while there is room. A decoder that has no more
    fails. With what is left. *)
Fixpoint packed_loop (needs_drop : bool) (n : nat) (v : fvec) (outs : list (option item)) (log : list item) :
    sout (option (list item * list (option item)) * list item) :=
  if Nat.leb n (f_len v) then let? xs := fvec_into_inner n v in SDone (Some (xs, outs), log)
  else match outs with
  | [] | None :: _ => let? (_, log) := array_fails needs_drop v log in SDone (None, log)
  | Some x :: r =>
      let? (a, l) := fvec_try_push n v x in
      let '(ok, v) := a : bool * fvec in
      let log := log ++ destroyed needs_drop l in
      if negb ok then let? (_, log) := array_fails needs_drop v log in SDone (None, log) else packed_loop needs_drop n v r log
  end.
Definition decode_packed_array (needs_drop : bool) (n : nat) (outs : list (option item)) := packed_loop needs_drop n (fvec_new n) outs [].
