(** Model of crates/musli/src/reader.rs, writer.rs, writer/slice_mut_writer.rs and fixed.rs.
    Pointers are addresses, numbers below [2 ^ usize_bits p], and pointer
    arithmetic wraps as [wrapping_add] does. *)
From Verif Require Import Base Options Int.
Local Open Scope N_scope.

(** ** Readers *)

(** [&'de [u8]] (reader.rs:185-318), [SliceReader] (reader.rs:320-500) and
    [Limit] (reader.rs:505-625) around another reader. [&mut R] (reader.rs:627-722) forwards every
    call. *)
Inductive reader :=
| RSlice (s : bytes)
| RPtr (start end_ : N)
| RLimit (remaining : N) (r : reader).

(** The methods that consume input: skip, read, read_bytes, read_bytes_uninit, read_byte,
    read_array. Visitors given to [read_bytes] are taken to succeed. *)
Inductive meth := MSkip | MRead | MReadBytes | MReadUninit | MReadByte | MReadArray.

(** The bytes of the memory [mem] at [start .. start + n]. *)
Definition load (mem : N -> N) (start n : N) : bytes :=
  map (fun i => mem (start + N.of_nat i)) (seq 0 (N.to_nat n)).

(** bounds_check_add, reader.rs:483-500 *)
Definition bounds_check_add (p : plat) (start end_ n : N) : option N :=
  let outcome := (start + n) mod 2 ^ usize_bits p in
  if (end_ <? outcome) || (outcome <? start) then None else Some outcome.

(** One call of a consuming method: the bytes that were passed over or nothing on
    an error, the reader afterwards and the argument of [Context::advance]. *)
Fixpoint rtake (p : plat) (mem : N -> N) (m : meth) (n : N) (r : reader)
    : option bytes * reader * N :=
  match r with
  | RSlice s =>
      match m with
      (* reader.rs:265-277 *)
      | MReadByte => match s with [] => (None, r, 0) | b :: t => (Some [b], RSlice t, 1) end
      (* reader.rs:208-263, 279-312: len < n is an error, otherwise split_at *)
      | _ => match take_opt n s with
             | None => (None, r, 0)
             | Some (h, t) => (Some h, RSlice t, n)
             end
      end
  | RPtr start end_ =>
      (* reader.rs:411-479. read_byte and read_array are the provided methods of the trait,
         reader.rs:120-158, whose visitor advances the context a second time. *)
      match bounds_check_add p start end_ n with
      | None => (None, r, 0)
      | Some outcome =>
          (Some (load mem start n), RPtr outcome end_,
           match m with MReadByte | MReadArray => n + n | _ => n end)
      end
  | RLimit remaining r' =>
      (* bounds_check, reader.rs:524-538, then the method of the inner reader, reader.rs:565-625 *)
      if remaining <? n then (None, r, 0)
      else
        let '(out, r'', a) := rtake p mem m n r' in
        (out, RLimit (remaining - n) r'', a)
  end.

(** [peek], reader.rs:314-317, 448-456, 597-604 *)
Fixpoint rpeek (mem : N -> N) (r : reader) : option N :=
  match r with
  | RSlice s => hd_error s
  | RPtr start end_ => if start =? end_ then None else Some (mem start)
  | RLimit remaining r' => if 0 <? remaining then rpeek mem r' else None
  end.

(** [is_eof], reader.rs:203-206, 406-409, 560-563 *)
Fixpoint reof (r : reader) : bool :=
  match r with
  | RSlice s => match s with [] => true | _ => false end
  | RPtr start end_ => start =? end_
  | RLimit remaining r' => (remaining =? 0) || reof r'
  end.

(** One step of a program that uses a reader. [ULimit n] continues with
    [reader.borrow_mut().limit(n)], [UDrop] ends the scope of the innermost limit. *)
Inductive rop :=
| UTake (m : meth) (n : N)
| UPeek
| UEof
| ULimit (n : N)
| UDrop.

(** What the program observes. A skip shows only that it succeeded. *)
Inductive event :=
| EBytes (bs : bytes)
| EDone
| EFail
| EPeek (b : option N)
| EEof (b : bool).

(** The number of bytes asked for: [read_byte] asks for one. *)
Definition amount (m : meth) (n : N) : N := match m with MReadByte => 1 | _ => n end.

Definition rstep (p : plat) (mem : N -> N) (u : rop) (st : reader * N) : event * (reader * N) :=
  let (r, pos) := st in
  match u with
  | UTake m n =>
      let '(out, r', a) := rtake p mem m (amount m n) r in
      (match out with
       | None => EFail
       | Some bs => match m with MSkip => EDone | _ => EBytes bs end
       end,
       (* Context::advance, context/trace.rs:280-282 *)
       (r', (pos + a) mod 2 ^ usize_bits p))
  | UPeek => (EPeek (rpeek mem r), st)
  | UEof => (EEof (reof r), st)
  (* limit, reader.rs:160-170 *)
  | ULimit n => (EDone, (RLimit n r, pos))
  | UDrop => (EDone, (match r with RLimit _ r' => r' | _ => r end, pos))
  end.

(** The history of a program. *)
Fixpoint rrun (p : plat) (mem : N -> N) (us : list rop) (st : reader * N)
    : list (rop * event) * (reader * N) :=
  match us with
  | [] => ([], st)
  | u :: us' =>
      let (e, st1) := rstep p mem u st in
      let (h, st2) := rrun p mem us' st1 in
      ((u, e) :: h, st2)
  end.

(** [Limit::remaining] of the limits around the reader, innermost scope first. *)
Fixpoint limits (r : reader) : list N :=
  match r with RLimit n r' => n :: limits r' | _ => [] end.

(** ** Writers *)

(** [Vec<u8>] (writer.rs:150-194), [SliceMutWriter] (slice_mut_writer.rs:9-108) over the
    memory of the borrowed slice, which begins at [base], and [FixedBytes<N>]
    (fixed.rs:17-228) over [N] bytes of which [init] are initialised. *)
Inductive writer :=
| WVec (v : bytes)
| WSlice (mem : bytes) (base start end_ : N)
| WFixed (data : bytes) (init : N).

(** Overwrite [mem] from [off] on with [bs]; what lies beyond the end of [mem] would be an
    overrun and is reported as [None]. *)
Definition store (mem : bytes) (off : N) (bs : bytes) : option bytes :=
  match take_opt off mem with
  | Some (h, t) =>
      match take_opt (lenN bs) t with
      | Some (_, t') => Some (h ++ bs ++ t')
      | None => None
      end
  | None => None
  end.

(** write_bytes, write_byte, extend *)
Inductive wop :=
| UWrite (bs : bytes)
| UByte (b : N)
| UExtend (bs : bytes).

Inductive wres := WOk (w : writer) | WErr | WOverrun.

(** write_bytes. [Vec]: writer.rs:176-184, memory exhaustion is not modelled;
    SliceMutWriter: slice_mut_writer.rs:65-89; FixedBytes: fixed.rs:129-160, 217-227. *)
Definition wbytes (p : plat) (w : writer) (bs : bytes) : wres :=
  match w with
  | WVec v => WOk (WVec (v ++ bs))
  | WSlice mem base start end_ =>
      let e := (start + lenN bs) mod 2 ^ usize_bits p in
      if (end_ <? e) || (e <? start) then WErr
      else match store mem (start - base) bs with
           | Some mem' => WOk (WSlice mem' base e end_)
           | None => WOverrun
           end
  | WFixed data init =>
      (* [N.saturating_sub(init)] *)
      if lenN data - init <? lenN bs then WErr
      else match store data init bs with
           | Some data' => WOk (WFixed data' ((init + lenN bs) mod 2 ^ usize_bits p))
           | None => WOverrun
           end
  end.

(** write_byte: writer.rs:186-193; slice_mut_writer.rs:91-107; the provided method of the trait
    for FixedBytes, writer.rs:74-80 *)
Definition wbyte (p : plat) (w : writer) (b : N) : wres :=
  match w with
  | WVec v => WOk (WVec (v ++ [b]))
  | WSlice mem base start end_ =>
      if start =? end_ then WErr
      else match store mem (start - base) [b] with
           | Some mem' => WOk (WSlice mem' base (start + 1) end_)
           | None => WOverrun
           end
  | WFixed _ _ => wbytes p w [b]
  end.

(** extend: writer.rs:166-174, slice_mut_writer.rs:54-62, fixed.rs:208-215 *)
Definition wstep (p : plat) (w : writer) (u : wop) : wres :=
  match u with
  | UWrite bs | UExtend bs => wbytes p w bs
  | UByte b => wbyte p w b
  end.

(** A program that carries on after an error: which of its writes succeeded. An overrun
    stops it. *)
Fixpoint wrun (p : plat) (us : list wop) (w : writer) : option (list (wop * bool) * writer) :=
  match us with
  | [] => Some ([], w)
  | u :: us' =>
      match wstep p w u with
      | WOverrun => None
      | WOk w' =>
          match wrun p us' w' with Some (h, w2) => Some ((u, true) :: h, w2) | None => None end
      | WErr =>
          match wrun p us' w with Some (h, w2) => Some ((u, false) :: h, w2) | None => None end
      end
  end.

(** SliceMutWriter::new, slice_mut_writer.rs:17-29; FixedBytes::new, fixed.rs:26-34: the
    contents of [data] are arbitrary *)
Definition wslice (base : N) (mem : bytes) : writer := WSlice mem base base (base + lenN mem).
Definition wfixed (data : bytes) : writer := WFixed data 0.

(** What the owner of the memory sees afterwards: the vector; the whole slice; the
    initialised part of the fixed bytes (as_slice, fixed.rs:84-93) *)
Definition wseen (w : writer) : bytes :=
  match w with
  | WVec v => v
  | WSlice mem _ _ _ => mem
  | WFixed data init => firstn (N.to_nat init) data
  end.

(** The number of bytes that [to_slice] reports, macros/internal.rs:712-726, with
    SliceMutWriter::finish, slice_mut_writer.rs:41-46; [len], fixed.rs:47-50. *)
Definition wcount (w : writer) : N :=
  match w with
  | WVec v => lenN v
  | WSlice mem _ start end_ => lenN mem - (end_ - start)
  | WFixed _ init => init
  end.

(** FixedBytes::with_capacity, fixed.rs:36-44: the assertion is [capacity < N]. *)
Definition fixed_with_capacity (data : bytes) (capacity : N) : res writer :=
  if capacity <? lenN data then Ok (wfixed data) else Panic.

(** FixedBytes::into_bytes, fixed.rs:67-82 *)
Definition into_bytes (w : writer) : option bytes :=
  match w with
  | WFixed data init => if init =? lenN data then Some data else None
  | _ => None
  end.
