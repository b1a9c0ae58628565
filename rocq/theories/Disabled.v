(** The vectors and boxes of crates/musli-core/src/alloc (vec.rs, boxed.rs) over the allocator [Disabled]
    (disabled.rs), which hands out no memory, with destructors. Types, calls and replies are those of [System.v]. *)
From Verif Require Import Base System.
Local Open Scope N_scope.

(** vec.rs:30-36 with disabled.rs:7-9: the element type and the length *)
Record dvec := mkdv { d_ty : ety; d_len : N }.
Definition with_dlen (v : dvec) n := mkdv (d_ty v) n.

(** disabled.rs:22-29 *)
Definition dvec_capacity (v : dvec) : N := if e_size (d_ty v) =? 0 then usize_max else 0.

(** resize, disabled.rs:31-34: it always fails. *)
Definition dresize (v : dvec) (len additional : N) : bool := false.

(** What is read or written through the dangling pointer of disabled.rs:12-20: elements of size zero, or none. *)
Definition dread (v : dvec) (n : N) : sout (list item) :=
  if e_size (d_ty v) =? 0 then SDone (repeat zst_item (N.to_nat n)) else if n =? 0 then SDone [] else SUndef.
Definition dwrite (v : dvec) (n : N) : sout unit :=
  if (e_size (d_ty v) =? 0) || (n =? 0) then SDone tt else SUndef.

(** vec.rs:336-340 *)
Definition dvec_items (v : dvec) : sout (list item) := dread v (d_len v).

(** vec.rs:66-71 with disabled.rs:79-84 *)
Definition dvec_new (t : ety) : dvec := mkdv t 0.

(** vec.rs:111-115 *)
Definition dvec_with_capacity (t : ety) (n : N) : option dvec :=
  let v := dvec_new t in if dresize v 0 n then Some v else None.

(** vec.rs:191-197 *)
Definition dvec_reserve (v : dvec) (n : N) : bool :=
  if e_size (d_ty v) =? 0 then true else dresize v (d_len v) n.

(** vec.rs:244-257 *)
Definition dvec_push (dbg : bool) (v : dvec) (x : item) : sout (bool * dvec * list item) :=
  let t := d_ty v in
  if e_size t =? 0 then let? l := uadd dbg (d_len v) 1 in SDone (true, with_dlen v l, dropped t [x])
  else if negb (dresize v (d_len v) 1) then SDone (false, v, dropped t [x])
  else
    let? _ := dwrite v 1 in
    let? l := uadd dbg (d_len v) 1 in
    SDone (true, with_dlen v l, []).

(** vec.rs:281-289 *)
Definition dvec_pop (v : dvec) : sout (option item * dvec) :=
  if d_len v =? 0 then SDone (None, v)
  else
    let? xs := dvec_items v in
    SDone (Some (last xs zst_item), with_dlen v (d_len v - 1)).

(** vec.rs:313-317 *)
Definition dvec_clear (v : dvec) : sout (dvec * list item) :=
  let? xs := dvec_items v in
  SDone (with_dlen v 0, dropped (d_ty v) xs).

(** vec.rs:596-603: the buffer has no destructor. *)
Definition dvec_drop (v : dvec) : sout (list item) := let? (_, log) := dvec_clear v in SDone log.

(** vec.rs:478-493 *)
Definition dvec_extend_from_slice (dbg : bool) (v : dvec) (xs : list item) : sout (bool * dvec) :=
  let n := lenN xs in
  if e_size (d_ty v) =? 0 then let? l := uadd dbg (d_len v) n in SDone (true, with_dlen v l)
  else if negb (dresize v (d_len v) n) then SDone (false, v)
  else
    let? _ := dwrite v n in
    let? l := uadd dbg (d_len v) n in
    SDone (true, with_dlen v l).

(** vec.rs:519-531 with try_merge, disabled.rs:36-42, which hands the other buffer back: [o] is consumed. *)
Definition dvec_extend (dbg : bool) (v o : dvec) : sout (bool * dvec) :=
  let? xs := dvec_items o in
  let? (ok, v) := dvec_extend_from_slice dbg v xs in
  let? _ := dvec_drop o in
  SDone (ok, v).

(** boxed.rs:59-63 with disabled.rs:74-77, where the value is dropped *)
Definition dbox_new (t : ety) (x : item) : option dvec * list item := (None, dropped t [x]).

(** vec.rs:75-90, with IS_SYSTEM from disabled.rs:70. The contract of [Vec::from_raw_parts] is met by a dangling pointer for a
    capacity of zero and for types of size zero. *)
Definition dvec_into_std (v : dvec) : sout (list item * N) :=
  let cap := dvec_capacity v in
  let? xs := dvec_items v in
  if cap <? d_len v then SUndef else SDone (xs, cap).

(** ** Programs *)

Record dworld := mkdw { dw_vecs : list (option dvec); dw_log : list (ety * item) }.
Definition dvec_at (w : dworld) (i : nat) : option dvec :=
  match nth_error (dw_vecs w) i with Some (Some v) => Some v | _ => None end.

(** One call. The type system and the borrow checker rule out the calls that panic here: among them vectors of the
    standard library, which are only taken over by [System] (vec.rs:777-799). *)
Definition dstep (dbg : bool) (w : dworld) (o : sop) : sout (sreply * dworld) :=
  let vs := dw_vecs w in
  let log := dw_log w in
  match o with
  | PNew t => SDone (RDone, mkdw (vs ++ [Some (dvec_new t)]) log)
  | PWithCapacity t n =>
      let r := dvec_with_capacity t n in
      SDone (sreply_of (match r with Some _ => true | None => false end), mkdw (vs ++ [r]) log)
  | PBox t x =>
      let (r, l) := dbox_new t x in
      SDone (sreply_of (match r with Some _ => true | None => false end), mkdw (vs ++ [r]) (log ++ tag t l))
  | PFromStd _ _ _ => SPanic
  | PPush i x =>
      match dvec_at w i with
      | None => SPanic
      | Some v =>
          let? (r, l) := dvec_push dbg v x in
          let (ok, v') := r : bool * dvec in
          SDone (sreply_of ok, mkdw (set_at vs i (Some v')) (log ++ tag (d_ty v) l))
      end
  | PExtendFromSlice i xs =>
      match dvec_at w i with
      | None => SPanic
      | Some v =>
          if negb (e_copy (d_ty v)) then SPanic
          else let? (ok, v') := dvec_extend_from_slice dbg v xs in SDone (sreply_of ok, mkdw (set_at vs i (Some v')) log)
      end
  | PReserve i n =>
      match dvec_at w i with
      | None => SPanic
      | Some v => SDone (sreply_of (dvec_reserve v n), w)
      end
  | PPop i =>
      match dvec_at w i with
      | None => SPanic
      | Some v => let? (x, v') := dvec_pop v in SDone (RPopped x, mkdw (set_at vs i (Some v')) log)
      end
  | PClear i =>
      match dvec_at w i with
      | None => SPanic
      | Some v => let? (v', l) := dvec_clear v in SDone (RDone, mkdw (set_at vs i (Some v')) (log ++ tag (d_ty v) l))
      end
  | PExtend i j =>
      if Nat.eqb i j then SPanic
      else match dvec_at w i, dvec_at w j with
           | Some v, Some o =>
               if negb (e_copy (d_ty v)) || negb (ety_eqb (d_ty v) (d_ty o)) then SPanic
               else
                 let? (ok, v') := dvec_extend dbg v o in
                 SDone (sreply_of ok, mkdw (set_at (set_at vs i (Some v')) j None) log)
           | _, _ => SPanic
           end
  | PIntoStd i =>
      match dvec_at w i with
      | None => SPanic
      | Some v => let? (xs, cap) := dvec_into_std v in SDone (RStd xs cap, mkdw (set_at vs i None) log)
      end
  | PDrop i =>
      match dvec_at w i with
      | None => SPanic
      | Some v => let? l := dvec_drop v in SDone (RDone, mkdw (set_at vs i None) (log ++ tag (d_ty v) l))
      end
  end.

Fixpoint drun (dbg : bool) (w : dworld) (ops : list sop) : sout (list sreply * dworld) :=
  match ops with
  | [] => SDone ([], w)
  | o :: r =>
      let? (a, w) := dstep dbg w o in
      let? (l, w) := drun dbg w r in
      SDone (a :: l, w)
  end.

Definition dworld_empty : dworld := mkdw [] [].
