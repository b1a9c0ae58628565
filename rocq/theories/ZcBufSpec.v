(** What the properties of zero-copy buffers are stated with. *)
From Verif Require Import Base Options Int Utf8 Zc ZcSpec ZcBuf.
Local Open Scope N_scope.

(** The global allocator returns addresses of the requested alignment. *)
Definition alloc_good (E : zenv) : Prop :=
  forall n s a x, ealloc E n s a = Some x -> (a | x).

(** A new buffer: an [OwnedBuf] with any capacity and alignment, or a [SliceMut]
    over any slice. *)
Inductive fresh (E : zenv) : obuf -> Prop :=
| fresh_owned cap al st : pow2 al -> o_with E cap al = ZOk st -> fresh E st
| fresh_slice base cap al : pow2 al -> cap < 2 ^ ubits E -> fresh E (s_with base cap al).

(** The arguments of a safe operation: types are real types, the memory handed
    over is that of a value (with anything in its padding), bytes are bytes. *)
Definition op_ok (nb : ByteOrder) (op : oop) : Prop :=
  match op with
  | OpStore _ _ t m => zwf t /\ pk_ok t /\ valid_pattern nb t m
  | OpStoreSlice _ _ t n m => zwf t /\ pk_ok t /\ valid_pattern nb (ZArray t n) m
  | OpStoreStr _ _ s => bytes_ok s = true /\ utf8_valid s = true
  | OpStoreUninit _ _ t => zwf t
  | OpWriteUninit _ t m => zwf t /\ pk_ok t /\ valid_pattern nb t m
  | OpExtend bs => bytes_ok bs = true
  | OpRequestAlign t => zwf t
  | OpPoke _ b => b < 256
  | OpReserve _ | OpAlign | OpTruncate _ => True
  end.

(** A buffer some history leads to. *)
Definition reach (E : zenv) (nb : ByteOrder) (st : obuf) : Prop :=
  exists st0 ops, fresh E st0 /\ Forall (op_ok nb) ops /\ orun E nb st0 ops = ZOk st.

(** The operation does not overwrite the [n] bytes at [off]. *)
Definition untouched (off n : N) (op : oop) : Prop :=
  match op with
  | OpWriteUninit at_ t _ => at_ + size_of t <= off \/ off + n <= at_
  | OpTruncate k => off + n <= k
  | OpPoke i _ => i < off \/ off + n <= i
  | _ => True
  end.

(** References whose offsets are stored as [usize] are only used with the native
    byte order. *)
Definition size_sane (nb e : ByteOrder) (o : osize) : Prop := ousz o = true -> nb = e.

(** [n] padding bytes bring [len] to a multiple of [al], and no fewer do. *)
Definition least_padding (len al n : N) : Prop :=
  (al | len + n) /\ forall k, (al | len + k) -> n <= k.
