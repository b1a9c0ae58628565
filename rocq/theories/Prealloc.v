(** How much memory decoding a vector takes: crates/musli-core/src/de/utils.rs, musli-core/src/internal/size_hint.rs,
    decode_slice of crates/musli/src/storage/de.rs and visit_sequence of crates/musli/src/value/value.rs, for the vectors
    over [System] of [System.v] (musli-core/src/alloc/vec.rs:856-863). *)
From Verif Require Import Base System.
Local Open Scope N_scope.

(** The memory that is allocated *)
Definition allocated (h : heap) : N :=
  fold_right (fun b n => match b with Some b => b_size b + n | None => n end) 0 (h_blocks h).

(** [SizeHint::or_default], musli-core/src/de/size_hint.rs:66-71 *)
Definition or_default (hint : option N) : N := match hint with Some n => n | None => 0 end.

(** cautious, internal/size_hint.rs:6-16 *)
Definition cautious (t : ety) (hint : option N) : N :=
  if e_size t =? 0 then 0 else N.min (or_default hint) (1024 * 1024 / e_size t).

(** The log has, after each call that may allocate, how much has been decoded so far and how much memory is allocated. *)
Definition mlog := list (N * N).

(** The vector is dropped when an error is returned. *)
Definition give_up (h : heap) (v : svec) (log : mlog) : sout (option svec * heap * mlog) :=
  let? (h, _) := svec_drop h v in SDone (None, h, log).

(** The loop of default_decode_slice, de/utils.rs:22-28, for a decoder that gives these elements, and [None] for an
    error of the decoder. [k] elements are decoded so far. *)
Fixpoint push_all (env : nat -> bool) (dbg : bool) (h : heap) (v : svec) (k : N) (outs : list (option item)) (log : mlog) :
    sout (option svec * heap * mlog) :=
  match outs with
  | [] => SDone (Some v, h, log)
  | None :: _ => give_up h v log
  | Some x :: r =>
      let? (a, _) := svec_push env dbg h v x in
      let '(ok, v, h) := a : bool * svec * heap in
      let log := log ++ [(k + 1, allocated h)] in
      if negb ok then give_up h v log else push_all env dbg h v (k + 1) r log
  end.

(** With room for [n] elements to start with *)
Definition collect_slice (env : nat -> bool) (dbg : bool) (h : heap) (t : ety) (n : N) (outs : list (option item)) :
    sout (option svec * heap * mlog) :=
  let? (r, h) := svec_with_capacity env dbg h t n in
  let log := [(0, allocated h)] in
  match r with
  | None => SDone (None, h, log)
  | Some v => push_all env dbg h v 0 outs log
  end.

(** default_decode_slice, de/utils.rs:5-32 *)
Definition default_decode_slice env dbg h t (hint : option N) outs := collect_slice env dbg h t (cautious t hint) outs.

(** visit_sequence of a dynamic value, value/value.rs:395-409 *)
Definition value_visit_sequence env dbg h t (hint : option N) outs := collect_slice env dbg h t (or_default hint) outs.

(** max_chunk, storage/de.rs:330-341 *)
Definition max_chunk (t : ety) : N :=
  let base := 2 ^ 16 in
  let size := if e_size t =? 0 then 1 else if base <? e_size t then base else e_size t in
  (base + size - 1) / size.

(** The elements in memory: each [size] bytes, told from others by their bytes as a number. *)
Definition elem (bs : bytes) : item := fold_right (fun b n => b + 256 * n) 0 bs.
Fixpoint elems (size : nat) (n : nat) (bs : bytes) : list item :=
  match n with
  | O => []
  | S n => elem (firstn size bs) :: elems size n (skipn size bs)
  end.

(** The loop of decode_slice, storage/de.rs:343-364. [k] bytes are read so far. [fuel] is for Coq: each round but the last reads a byte
    or more. [chunk * size_of::<T>()] is at most 2^17 or the size of one element. *)
Fixpoint read_chunks (fuel : nat) (env : nat -> bool) (dbg : bool) (h : heap) (v : svec) (len k : N) (bs : bytes) (log : mlog) :
    sout (option (svec * bytes) * heap * mlog) :=
  match fuel with
  | O => SPanic
  | S f =>
      if len <=? s_len v then SDone (Some (v, bs), h, log)
      else
        let chunk := N.min (len - s_len v) (max_chunk (s_ty v)) in
        let? (a, h) := svec_reserve env dbg h v chunk in
        let '(ok, v) := a : bool * svec in
        let log := log ++ [(k, allocated h)] in
        let n := chunk * e_size (s_ty v) in
        if negb ok || (lenN bs <? n) then let? (h, _) := svec_drop h v in SDone (None, h, log)
        else
          let xs := elems (N.to_nat (e_size (s_ty v))) (N.to_nat chunk) (firstn (N.to_nat n) bs) in
          let? h := write_items h (s_data v) (s_len v) xs in
          read_chunks f env dbg h (with_slen v (s_len v + chunk)) len (k + n) (skipn (N.to_nat n) bs) log
  end.

(** decode_slice, storage/de.rs:305-375, when the elements are as in memory, after the length was read *)
Definition storage_decode_slice (env : nat -> bool) (dbg : bool) (h : heap) (t : ety) (len : N) (bs : bytes) :
    sout (option (svec * bytes) * heap * mlog) :=
  let v := svec_new t in
  if e_size t =? 0 then SDone (Some (with_slen v len, bs), h, [])
  else read_chunks (S (length bs)) env dbg h v len 0 bs [].
