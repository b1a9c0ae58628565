(** Model of musli-zerocopy's buffers and references: [Ref], [Size], [Packed],
    [Buf], [OwnedBuf], [SliceMut] and binary search.

    All paths are relative to crates/musli-zerocopy/src. Arithmetic on [usize]
    is modelled with overflow checks: an overflow is a panic. *)
From Verif Require Import Base Options Int Utf8 Zc.
Local Open Scope N_scope.

(** ** Sizes and references *)

(** The types implementing [Size]: u8, u16, u32, u64 of [ow] bytes, and usize
    ([ousz]), pointer/size.rs:91-155. *)
Record osize := { ow : nat; ousz : bool }.

Definition omax (o : osize) : N := 256 ^ N.of_nat (ow o) - 1.

(** [O::swap_bytes::<E>], traits.rs:799-804, 821-826 *)
Definition osw (nb e : ByteOrder) (o : osize) (n : N) : N := swap_int nb e (ow o) n.

(** [Size::as_usize::<E>], pointer/size.rs:131-140, instantiated at 150-155: for
    [usize] (and u8) the conversion is [identity]. The comparison with
    [usize::MAX] never succeeds for the supported sizes. *)
Definition as_usize (nb e : ByteOrder) (o : osize) (raw : N) : N :=
  if ousz o then raw else osw nb e o raw.

(** [Ref<T, E, O>], pointer/ref.rs:49-62: the stored offset and metadata (0
    standing for the [()] metadata of a sized [T]). *)
Record zref := { roff : N; rmeta : N }.

(** [TryFrom<usize>] and [Size::try_from_usize], pointer/size.rs:122-128 *)
Definition otry (o : osize) (n : N) : option N := if omax o <? n then None else Some n.

(** [Ref::new], pointer/ref.rs:610-631 *)
Definition ref_new (nb e : ByteOrder) (o : osize) (off : N) : zres zref :=
  match otry o off with
  | None => ZPanic
  | Some off => ZOk {| roff := osw nb e o off; rmeta := 0 |}
  end.

(** [Ref::with_metadata] for slices and strings, pointer/ref.rs:186-211 *)
Definition ref_with_metadata (nb e : ByteOrder) (o : osize) (off len : N) : zres zref :=
  match otry o off, otry o len with
  | Some off, Some len => ZOk {| roff := osw nb e o off; rmeta := osw nb e o len |}
  | _, _ => ZPanic
  end.

(** [Ref::try_with_metadata], pointer/ref.rs:241-278 *)
Definition ref_try_with_metadata (nb e : ByteOrder) (o : osize) (off len : N) : zres zref :=
  match otry o off, otry o len with
  | Some off, Some len => ZOk {| roff := osw nb e o off; rmeta := osw nb e o len |}
  | _, _ => ZErr
  end.

(** [Ref::offset], pointer/ref.rs:670-672; [Ref::len], 297-299, 482-484;
    [Ref::is_empty], 315-317, 500-502 *)
Definition r_offset (nb e : ByteOrder) (o : osize) (r : zref) : N := as_usize nb e o (roff r).
Definition r_len (nb e : ByteOrder) (o : osize) (r : zref) : N := as_usize nb e o (rmeta r).
Definition r_is_empty (r : zref) : bool := rmeta r =? 0.

(** [Ref::to_endian], pointer/ref.rs:144-150 *)
Definition r_to_endian (nb e u : ByteOrder) (o : osize) (r : zref) : zref :=
  {| roff := osw nb u o (osw nb e o (roff r)); rmeta := osw nb u o (osw nb e o (rmeta r)) |}.

(** [usize] arithmetic on a target with [ub] bits. *)
Definition uadd (ub a b : N) : zres N := if a + b <? 2 ^ ub then ZOk (a + b) else ZPanic.
Definition umul (ub a b : N) : zres N := if a * b <? 2 ^ ub then ZOk (a * b) else ZPanic.

(** [Ref::<[T]>::get_unchecked], pointer/ref.rs:374-377 *)
Definition r_get_unchecked (ub : N) (nb e : ByteOrder) (o : osize) (sz : N) (r : zref) (i : N) : zres zref :=
  let+ d := umul ub sz i in
  let+ off := uadd ub (r_offset nb e o r) d in
  ref_new nb e o off.

(** [Ref::<[T]>::get], pointer/ref.rs:339-346 *)
Definition r_get (ub : N) (nb e : ByteOrder) (o : osize) (sz : N) (r : zref) (i : N) : zres (option zref) :=
  if r_len nb e o r <=? i then ZOk None else
  let+ x := r_get_unchecked ub nb e o sz r i in ZOk (Some x).

(** [Ref::<[T]>::split_at], pointer/ref.rs:405-412 *)
Definition r_split_at (ub : N) (nb e : ByteOrder) (o : osize) (sz : N) (r : zref) (at_ : N)
  : zres (zref * zref) :=
  let off := r_offset nb e o r in
  let len := r_len nb e o r in
  if len <? at_ then ZPanic else
  let+ a := ref_with_metadata nb e o off at_ in
  let+ d := umul ub at_ sz in
  let+ off2 := uadd ub off d in
  let+ b := ref_with_metadata nb e o off2 (len - at_) in
  ZOk (a, b).

(** [Ref::<[T]>::iter], pointer/ref.rs:454-463; the iterator is (start, end). *)
Definition r_iter (ub : N) (nb e : ByteOrder) (o : osize) (sz : N) (r : zref) : zres (N * N) :=
  let start := r_offset nb e o r in
  let+ d := umul ub (r_len nb e o r) sz in
  let+ end_ := uadd ub start d in
  ZOk (start, end_).

(** [Iter::next], pointer/ref.rs:523-531, and [Iter::next_back], 541-548 *)
Definition iter_next (ub : N) (nb e : ByteOrder) (o : osize) (sz : N) (it : N * N)
  : zres (option (zref * (N * N))) :=
  let '(start, end_) := it in
  if start =? end_ then ZOk None else
  let+ start' := uadd ub start sz in
  let+ r := ref_new nb e o start in
  ZOk (Some (r, (start', end_))).

Definition iter_next_back (ub : N) (nb e : ByteOrder) (o : osize) (sz : N) (it : N * N)
  : zres (option (zref * (N * N))) :=
  let '(start, end_) := it in
  if start =? end_ then ZOk None else
  if end_ <? sz then ZPanic else
  let+ r := ref_new nb e o (end_ - sz) in
  ZOk (Some (r, (start, end_ - sz))).

(** [Ref::coerce] and [Ref::try_coerce] between slices, pointer/ref.rs:689-700,
    761-771, pointer/coerce.rs:22-99, pointer/coerce_slice.rs:86-98: the stored
    length is multiplied by the ratio of the element sizes ([k] is 1, 2, 4, 8 or
    16). *)
Definition r_coerce (o : osize) (k : N) (r : zref) : zref :=
  {| roff := roff r; rmeta := (rmeta r * k) mod 256 ^ N.of_nat (ow o) |}.
Definition r_try_coerce (o : osize) (k : N) (r : zref) : option zref :=
  if rmeta r * k <? 256 ^ N.of_nat (ow o) then Some {| roff := roff r; rmeta := rmeta r * k |} else None.

(** ... from an array of [n] elements, pointer/coerce.rs:213-230 ([n] = 1: from a
    single value, 178-194). *)
Definition r_coerce_array (o : osize) (k n : N) (r : zref) : zref :=
  r_coerce o k {| roff := roff r; rmeta := match otry o n with Some m => m | None => omax o end |}.
Definition r_try_coerce_array (o : osize) (k n : N) (r : zref) : option zref :=
  match otry o n with Some m => r_try_coerce o k {| roff := roff r; rmeta := m |} | None => None end.

(** [Ref::array_into_slice], pointer/ref.rs:808-810 ([self.offset] is the stored
    field, not [self.offset()]). *)
Definition r_array_into_slice (nb e : ByteOrder) (o : osize) (n : N) (r : zref) : zres zref :=
  ref_with_metadata nb e o (roff r) n.

(** [Packed<[T], O, L, E>], slice/packed.rs:35-48, with [from_raw_parts],
    143-161, [get], 229-235, [get_unchecked], 303-306, [split_at], 265-272,
    [offset]/[len], 318-335. *)
Definition packed_new (nb e : ByteOrder) (o l : osize) (off len : N) : zres zref :=
  match otry o off, otry l len with
  | Some off, Some len => ZOk {| roff := osw nb e o off; rmeta := osw nb e l len |}
  | _, _ => ZPanic
  end.
Definition p_offset (nb e : ByteOrder) (o : osize) (r : zref) : N := as_usize nb e o (roff r).
Definition p_len (nb e : ByteOrder) (l : osize) (r : zref) : N := as_usize nb e l (rmeta r).
Definition p_get_unchecked (ub : N) (nb e : ByteOrder) (o usz : osize) (sz : N) (r : zref) (i : N) : zres zref :=
  let+ d := umul ub sz i in
  let+ off := uadd ub (p_offset nb e o r) d in
  ref_new nb e usz off.
Definition p_get (ub : N) (nb e : ByteOrder) (o l usz : osize) (sz : N) (r : zref) (i : N) : zres (option zref) :=
  if p_len nb e l r <=? i then ZOk None else
  let+ x := p_get_unchecked ub nb e o usz sz r i in ZOk (Some x).
Definition p_split_at (ub : N) (nb e : ByteOrder) (o l : osize) (sz : N) (r : zref) (at_ : N)
  : zres (zref * zref) :=
  let off := p_offset nb e o r in
  let len := p_len nb e l r in
  if len <? at_ then ZPanic else
  let+ a := packed_new nb e o l off at_ in
  let+ d := umul ub at_ sz in
  let+ off2 := uadd ub off d in
  let+ b := packed_new nb e o l off2 (len - at_) in
  ZOk (a, b).

(** ** Loading: [Buf] *)

(** A [Buf]: the address of its first byte and its bytes. *)
Record zbuf := { baddr : N; bdata : bytes }.

(** [buf::is_aligned_with], buf/mod.rs:214-216 *)
Definition is_aligned_with (addr al : N) : bool := N.land addr (al - 1) =? 0.

(** [Buf::inner_get_unaligned], buf/buf.rs:674-683 *)
Definition b_get_unaligned (b : zbuf) (start end_ : N) : zres bytes :=
  if (start <=? end_) && (end_ <=? lenN (bdata b))
  then ZOk (firstn (N.to_nat (end_ - start)) (skipn (N.to_nat start) (bdata b)))
  else ZErr.

(** [Buf::inner_get], buf/buf.rs:627-644 *)
Definition b_get (b : zbuf) (start end_ al : N) : zres bytes :=
  let+ s := b_get_unaligned b start end_ in
  if is_aligned_with (baddr b + start) al then ZOk s else ZErr.

(** [Buf::load_sized], buf/buf.rs:749-770 ([load_sized_mut], 874-893;
    [Load for Ref<T>], buf/load.rs:24-37; [load_at], 356-361). The result is the
    memory of the referenced value. *)
Definition load_sized (ub : N) (nb : ByteOrder) (b : zbuf) (t : zty) (off : N) : zres bytes :=
  let+ end_ := uadd ub off (size_of t) in
  let+ s := b_get b off end_ (align_of t) in
  let+ _ := if any_bits t then ZOk tt else zvalidate nb t (baddr b + off) s in
  ZOk s.

(** [Buf::load_sized_unaligned], buf/buf.rs:899-919 *)
Definition load_sized_unaligned (ub : N) (nb : ByteOrder) (b : zbuf) (t : zty) (off : N) : zres bytes :=
  let+ end_ := uadd ub off (size_of t) in
  let+ s := b_get_unaligned b off end_ in
  let+ _ := if any_bits t then ZOk tt else zvalidate nb t (baddr b + off) s in
  ZOk s.

(** [Buf::get_range_from], buf/buf.rs:571-594: the bytes from [start] on. *)
Definition b_get_from (b : zbuf) (start al : N) : zres bytes :=
  if lenN (bdata b) <? start then ZErr else
  if is_aligned_with (baddr b + start) al then ZOk (skipn (N.to_nat start) (bdata b)) else ZErr.

(** [Buf::load_unsized] at [[T]], buf/buf.rs:706-722, with
    [<[T]>::validate_unsized], traits.rs:706-740 and [with_metadata], 742-745 *)
Definition load_slice (ub : N) (nb : ByteOrder) (b : zbuf) (t : zty) (off len : N) : zres bytes :=
  let+ rest := b_get_from b off (align_of t) in
  if 2 ^ ub <=? len * size_of t then ZErr else
  if lenN rest <? len * size_of t then ZErr else
  let+ _ := if any_bits t then ZOk tt
            else zvalidate nb (ZArray t (N.to_nat len)) (baddr b + off) rest in
  match take_opt (len * size_of t) rest with
  | Some (s, _) => ZOk s
  | None => ZUb
  end.

(** ... and at [str], with [str::validate_unsized], traits.rs:645-666 *)
Definition load_str (b : zbuf) (off len : N) : zres bytes :=
  let+ rest := b_get_from b off 1 in
  if lenN rest <? len then ZErr else
  match take_opt len rest with
  | Some (s, _) => if utf8_valid s then ZOk s else ZErr
  | None => ZUb
  end.

(** [Buf::swap], buf/buf.rs:830-870 *)
Definition patch (d : bytes) (off : N) (s : bytes) : bytes :=
  firstn (N.to_nat off) d ++ s ++ skipn (N.to_nat off + length s) d.
Definition slice_at (d : bytes) (off sz : N) : bytes := firstn (N.to_nat sz) (skipn (N.to_nat off) d).
Definition b_swap (ub : N) (sz : N) (d : bytes) (a b : N) : zres bytes :=
  if a =? b then ZOk d else
  let+ end_ := uadd ub (N.max a b) sz in
  if lenN d <? end_ then ZErr else
  let tmp := slice_at d a sz in
  let d := patch d a (slice_at d b sz) in
  ZOk (patch d b tmp).

(** ** Binary search *)

Inductive bsres := Found (i : N) | Missing (i : N).

(** [binary_search_by], slice/binary_search.rs:92-135; [probe i] loads element
    [i] and compares it. The loop is given fuel; [None] is not reached. *)
Fixpoint bs_loop (fuel : nat) (probe : N -> zres comparison) (size left right : N) : option (zres bsres) :=
  match fuel with
  | O => None
  | S fuel =>
      if left <? right then
        let mid := left + size / 2 in
        match probe mid with
        | ZOk Lt => bs_loop fuel probe (right - (mid + 1)) (mid + 1) right
        | ZOk Gt => bs_loop fuel probe (mid - left) left mid
        | ZOk Eq => Some (ZOk (Found mid))
        | ZErr => Some ZErr
        | ZPanic => Some ZPanic
        | ZUb => Some ZUb
        end
      else Some (ZOk (Missing left))
  end.
Definition binary_search_by (probe : N -> zres comparison) (len : N) : option (zres bsres) :=
  bs_loop (S (N.to_nat len)) probe len 0 len.

(** The probe on a [Ref<[T]>]: load the element, compare its memory. *)
Definition probe_ref (ub : N) (nb e : ByteOrder) (o : osize) (b : zbuf) (t : zty) (r : zref)
  (f : bytes -> zres comparison) (i : N) : zres comparison :=
  let+ x := r_get_unchecked ub nb e o (size_of t) r i in
  let+ s := load_sized ub nb b t (r_offset nb e o x) in
  f s.

(** The probe on a [Packed<[T]>]. *)
Definition probe_packed (ub : N) (nb e : ByteOrder) (o usz : osize) (b : zbuf) (t : zty) (r : zref)
  (f : bytes -> zres comparison) (i : N) : zres comparison :=
  let+ x := p_get_unchecked ub nb e o usz (size_of t) r i in
  let+ s := load_sized ub nb b t (r_offset nb e usz x) in
  f s.

(** ** Storing: [OwnedBuf] and [SliceMut] *)

(** The environment: width of [usize]; what the global allocator returns the
    [n]-th time for a size and alignment (None: out of memory, which aborts);
    the growth [(capacity as f32 * 1.5) as usize], owned_buf.rs:1058, left
    arbitrary. *)
Record zenv := {
  ubits : N;
  ealloc : N -> N -> N -> option N;
  egrow : N -> N
}.

(** [OwnedBuf], buf/owned_buf.rs:38-51, [SliceMut], buf/slice_mut.rs:28-38
    ([ofixed]). [odata] are the [len] initialised bytes. [olive] is not part of
    the program: the layout of the live allocation behind [data], if any. *)
Record obuf := {
  odata : bytes; ocap : N; oreq : N; oal : N; obase : N;
  ofixed : bool; olive : option (N * N); ocnt : N
}.

(** [Layout::from_size_align] succeeds. *)
Definition layout_ok (E : zenv) (size al : N) : bool := size + al <=? 2 ^ (ubits E - 1).

(** [alloc::alloc] is undefined for zero sizes; [alloc::dealloc] and
    [alloc::realloc] are undefined unless the block is live with that very
    layout. *)
Definition a_alloc (E : zenv) (st : obuf) (size al : N) : zres N :=
  if size =? 0 then ZUb else
  match ealloc E (ocnt st) size al with Some a => ZOk a | None => ZPanic end.
Definition a_dealloc (st : obuf) (size al : N) : zres unit :=
  match olive st with
  | Some (s, a) => if (s =? size) && (a =? al) then ZOk tt else ZUb
  | None => ZUb
  end.

(** [with_alignment], owned_buf.rs:129-141, and
    [with_capacity_and_custom_alignment], 240-275 *)
Definition o_with (E : zenv) (cap al : N) : zres obuf :=
  let st := {| odata := []; ocap := 0; oreq := al; oal := al; obase := al;
               ofixed := false; olive := None; ocnt := 0 |} in
  if cap =? 0 then ZOk st else
  if layout_ok E cap al then
    let+ a := a_alloc E st cap al in
    ZOk {| odata := []; ocap := cap; oreq := al; oal := al; obase := a;
           ofixed := false; olive := Some (cap, al); ocnt := 1 |}
  else ZPanic.

(** [SliceMut::with_alignment], slice_mut.rs:87-99, on [cap] bytes at [base] *)
Definition s_with (base cap al : N) : obuf :=
  {| odata := []; ocap := cap; oreq := al; oal := 1; obase := base;
     ofixed := true; olive := None; ocnt := 0 |}.

(** [alloc_init], owned_buf.rs:1084-1098 *)
Definition o_alloc_init (E : zenv) (st : obuf) (size : N) : zres obuf :=
  let+ a := a_alloc E st size (oreq st) in
  ZOk {| odata := odata st; ocap := size; oreq := oreq st; oal := oreq st; obase := a;
         ofixed := false; olive := Some (size, oreq st); ocnt := ocnt st + 1 |}.

(** [alloc_realloc], owned_buf.rs:1100-1116: moves the first [min old new]
    bytes. *)
Definition o_realloc (E : zenv) (st : obuf) (size : N) : zres obuf :=
  let+ _ := a_dealloc st (ocap st) (oal st) in
  let+ a := a_alloc E st size (oal st) in
  ZOk {| odata := firstn (N.to_nat (N.min (ocap st) size)) (odata st); ocap := size; oreq := oreq st;
         oal := oal st; obase := a; ofixed := false; olive := Some (size, oal st); ocnt := ocnt st + 1 |}.

(** [alloc_new], owned_buf.rs:1119-1137: copies [len] bytes. *)
Definition o_alloc_new (E : zenv) (st : obuf) (size : N) : zres obuf :=
  let+ a := a_alloc E st size (oreq st) in
  if size <? lenN (odata st) then ZUb else
  let+ _ := a_dealloc st (ocap st) (oal st) in
  ZOk {| odata := odata st; ocap := size; oreq := oreq st; oal := oreq st; obase := a;
         ofixed := false; olive := Some (size, oreq st); ocnt := ocnt st + 1 |}.

(** [ensure_capacity], owned_buf.rs:1051-1070, slice_mut.rs:889-898; [layouts],
    owned_buf.rs:1073-1082 *)
Definition o_ensure (E : zenv) (st : obuf) (want : N) : zres obuf :=
  let want := N.max want (oreq st) in
  if want <=? ocap st then ZOk st else
  if ofixed st then ZPanic else
  let want := N.max want (egrow E (ocap st)) in
  if layout_ok E want (oreq st) then
    if ocap st =? 0 then o_alloc_init E st want
    else if oreq st =? oal st then o_realloc E st want
    else o_alloc_new E st want
  else ZPanic.

(** [reserve], owned_buf.rs:373-376 *)
Definition o_reserve (E : zenv) (st : obuf) (n : N) : zres obuf :=
  let+ want := uadd (ubits E) (lenN (odata st)) n in
  o_ensure E st want.

(** Writing at [len] and advancing: outside the allocation it is undefined. *)
Definition o_push (st : obuf) (bs : bytes) : zres obuf :=
  if lenN (odata st) + lenN bs <=? ocap st
  then ZOk {| odata := odata st ++ bs; ocap := ocap st; oreq := oreq st; oal := oal st; obase := obase st;
              ofixed := ofixed st; olive := olive st; ocnt := ocnt st |}
  else ZUb.

Definition set_req (st : obuf) (r : N) : obuf :=
  {| odata := odata st; ocap := ocap st; oreq := r; oal := oal st; obase := obase st;
     ofixed := ofixed st; olive := olive st; ocnt := ocnt st |}.
Definition set_data (st : obuf) (d : bytes) : obuf :=
  {| odata := d; ocap := ocap st; oreq := oreq st; oal := oal st; obase := obase st;
     ofixed := ofixed st; olive := olive st; ocnt := ocnt st |}.

(** [next_offset_with_and_reserve], owned_buf.rs:1008-1011,
    [ensure_aligned_and_reserve], 994-1004; [request_align], 984-990, and
    [next_offset], 1039-1045, are the same; slice_mut.rs:823-885. *)
Definition o_next (E : zenv) (st : obuf) (al reserve : N) : zres obuf :=
  let st := set_req st (N.max (oreq st) al) in
  let extra := padding_to (lenN (odata st)) al in
  let+ n := uadd (ubits E) extra reserve in
  let+ st := o_reserve E st n in
  o_push st (zeros extra).

(** [store], owned_buf.rs:638-648, [store_unchecked], 701-711, slice_mut.rs:531-606;
    [m] is the memory of the value. Padding is cleared by [store_mem], here on
    the value's bytes alone. *)
Definition o_store (E : zenv) (nb e : ByteOrder) (o : osize) (st : obuf) (t : zty) (m : bytes)
  : zres (obuf * zref) :=
  let+ st := o_next E st (align_of t) (size_of t) in
  let off := lenN (odata st) in
  let+ m := store_mem nb t m in
  let+ st := o_push st m in
  let+ r := ref_new nb e o off in
  ZOk (st, r).

(** [store_unsized] of a slice of [n] values of type [t] ([store_slice]),
    owned_buf.rs:729-751, 779-784, slice_mut.rs:655-713: the padding of a slice
    is that of an array, traits.rs:694-698, padder.rs:150-153. *)
Definition o_store_slice (E : zenv) (nb e : ByteOrder) (o : osize) (st : obuf) (t : zty) (n : nat) (m : bytes)
  : zres (obuf * zref) :=
  let+ st := o_next E st (align_of t) (N.of_nat n * size_of t) in
  let off := lenN (odata st) in
  let+ m := store_mem nb (ZArray t n) m in
  let+ st := o_push st m in
  let+ r := ref_with_metadata nb e o off (N.of_nat n) in
  ZOk (st, r).

(** [store_unsized] of a [str] *)
Definition o_store_str (E : zenv) (nb e : ByteOrder) (o : osize) (st : obuf) (s : bytes) : zres (obuf * zref) :=
  let+ st := o_next E st 1 (lenN s) in
  let off := lenN (odata st) in
  let+ st := o_push st s in
  let+ r := ref_with_metadata nb e o off (lenN s) in
  ZOk (st, r).

(** [store_uninit], owned_buf.rs:484-499 *)
Definition o_store_uninit (E : zenv) (nb e : ByteOrder) (o : osize) (st : obuf) (t : zty) : zres (obuf * zref) :=
  let+ st := o_next E st (align_of t) (size_of t) in
  let off := lenN (odata st) in
  let+ st := o_push st (zeros (size_of t)) in
  let+ r := ref_new nb e o off in
  ZOk (st, r).

(** [load_uninit_mut(reference).write(value)], owned_buf.rs:556-574,
    mem/maybe_uninit.rs:94-103; [at_] is the reference's offset. *)
Definition o_write_uninit (E : zenv) (nb : ByteOrder) (st : obuf) (at_ : N) (t : zty) (m : bytes) : zres obuf :=
  let+ end_ := uadd (ubits E) at_ (size_of t) in
  if lenN (odata st) <? end_ then ZPanic else
  let+ m := store_mem nb t m in
  ZOk (set_data st (patch (odata st) at_ m)).

(** [extend_from_slice], owned_buf.rs:841-848, and [fill], 851-859 *)
Definition o_extend (E : zenv) (st : obuf) (bs : bytes) : zres obuf :=
  let+ st := o_reserve E st (lenN bs) in
  o_push st bs.

(** [align_in_place], owned_buf.rs:920-926, slice_mut.rs:1046-1051 *)
Definition o_align_in_place (E : zenv) (st : obuf) : zres obuf :=
  if is_aligned_with (obase st) (oreq st) then ZOk st else
  if ofixed st then ZPanic else
  if layout_ok E (ocap st) (oreq st) then o_alloc_new E st (ocap st) else ZPanic.

(** [clear], owned_buf.rs:308-310, [truncate], 1324-1328 *)
Definition o_truncate (st : obuf) (n : N) : obuf :=
  if n <? lenN (odata st) then set_data st (firstn (N.to_nat n) (odata st)) else st.

(** [clone], owned_buf.rs:1263-1275 (of an [OwnedBuf]) *)
Definition o_clone (E : zenv) (st : obuf) : zres obuf :=
  let+ new := o_with E (lenN (odata st)) (oal st) in
  ZOk (set_data (set_req new (oreq st)) (odata st)).

(** [drop], owned_buf.rs:1283-1292: what is left allocated. *)
Definition o_drop (st : obuf) : zres (option (N * N)) :=
  if ofixed st then ZOk None else
  if ocap st =? 0 then ZOk (olive st) else
  let+ _ := a_dealloc st (ocap st) (oal st) in
  ZOk None.

(** The buffer as a [Buf] ([Deref], owned_buf.rs:1152-1154). *)
Definition o_buf (st : obuf) : zbuf := {| baddr := obase st; bdata := odata st |}.

(** The safe operations of a buffer, as a history. *)
Inductive oop :=
| OpStore (e : ByteOrder) (o : osize) (t : zty) (m : bytes)
| OpStoreSlice (e : ByteOrder) (o : osize) (t : zty) (n : nat) (m : bytes)
| OpStoreStr (e : ByteOrder) (o : osize) (s : bytes)
| OpStoreUninit (e : ByteOrder) (o : osize) (t : zty)
| OpWriteUninit (at_ : N) (t : zty) (m : bytes)
| OpExtend (bs : bytes)
| OpReserve (n : N)
| OpRequestAlign (t : zty)
| OpAlign
| OpTruncate (n : N)
| OpPoke (i : N) (b : N). (* through [as_mut_slice], [load_mut], [swap] *)

Definition ostep (E : zenv) (nb : ByteOrder) (st : obuf) (op : oop) : zres obuf :=
  match op with
  | OpStore e o t m => let+ x := o_store E nb e o st t m in ZOk (fst x)
  | OpStoreSlice e o t n m => let+ x := o_store_slice E nb e o st t n m in ZOk (fst x)
  | OpStoreStr e o s => let+ x := o_store_str E nb e o st s in ZOk (fst x)
  | OpStoreUninit e o t => let+ x := o_store_uninit E nb e o st t in ZOk (fst x)
  | OpWriteUninit at_ t m => o_write_uninit E nb st at_ t m
  | OpExtend bs => o_extend E st bs
  | OpReserve n => o_reserve E st n
  | OpRequestAlign t => o_next E st (align_of t) (size_of t)
  | OpAlign => o_align_in_place E st
  | OpTruncate n => ZOk (o_truncate st n)
  | OpPoke i b => if i <? lenN (odata st) then ZOk (set_data st (patch (odata st) i [b])) else ZPanic
  end.

Fixpoint orun (E : zenv) (nb : ByteOrder) (st : obuf) (ops : list oop) : zres obuf :=
  match ops with
  | [] => ZOk st
  | op :: ops => let+ st := ostep E nb st op in orun E nb st ops
  end.
