(** The slice allocator and the vectors and boxes built on it:
    crates/musli/src/alloc/slice.rs, crates/musli-core/src/alloc/vec.rs,
    crates/musli-core/src/alloc/boxed.rs.

    Simplifications, common to the whole file:
    - The backing buffer is an address range; its bytes are a function from
      addresses to bytes.  Uninitialised bytes are not told apart from
      initialised ones.
    - Headers live in a table indexed by their identifier (slice.rs:563-584
      finds header [i] at [full.end - i]).  The part of the buffer they occupy
      is the range [free.end, full.end); a read or write of element data that
      leaves [full.start, free.end) is [Undefined] here, because in the program
      it would read or overwrite headers or foreign memory.
    - Elements are strings of bytes of the element's size: [T: Copy] data.
      Destructors of elements are not modelled.
    - Pointers are 64-bit. *)
From Coq Require Import List NArith Bool.
From Verif Require Import Base.
Import ListNotations.
Open Scope N_scope.

(** The size of the address space. *)
Definition usz : N := 2 ^ 64.
(** slice.rs:13-15 MAX_BYTES = i32::MAX. *)
Definition max_bytes : N := 2 ^ 31 - 1.
(** size_of and align_of slice.rs:865-874 [Header]: two pointers and two
    [Option<NonZeroU16>]. *)
Definition hdr_size : N := 24.
Definition hdr_align : N := 8.

(** slice.rs:865-874 Header. *)
Record hdr := mkh { h_start : N; h_end : N; h_prev : option N; h_next : option N }.

(** Ghost record of the three dangerous events.  Nothing in the model reads
    it, so it cannot change what the model does.
    - [Stale]: alloc_header hands out a free header that is still linked to
      another free header.
    - [WrongMerge]: try_merge releases a header that is not the one of the
      vector being merged.
    - [Overlap]: a new header is carved out of the bytes given to a region. *)
Inductive hazard := Stale | WrongMerge | Overlap.

(** slice.rs:523-534 Internal, with the memory it points to.
    [a_hdrs]: the headers by identifier; [a_dbg]: is this a build with debug
    assertions. *)
Record ast := mka {
  a_free_head : option N;
  a_tail : option N;
  a_occ : option N;
  a_lo : N; a_hi : N;
  a_fs : N; a_fe : N;
  a_hdrs : N -> hdr;
  a_mem : N -> N;
  a_dbg : bool;
  a_haz : list hazard }.

(** What a call can come to.  A panic or undefined behaviour carries the ghost
    record at that point. *)
Inductive out (A : Type) : Type :=
| Done (x : A)
| Panicked (z : list hazard)
| Undefined (z : list hazard).
Arguments Done {A} x.
Arguments Panicked {A} z.
Arguments Undefined {A} z.

Definition obind {A B} (m : out A) (f : A -> out B) : out B :=
  match m with Done x => f x | Panicked z => Panicked z | Undefined z => Undefined z end.
Notation "'let!' p ':=' e 'in' f" := (obind e (fun p => f))
  (at level 200, p pattern, e at level 100, f at level 200, right associativity).

(** Field updates. *)
Definition set_free_head (s : ast) x := mka x (a_tail s) (a_occ s) (a_lo s) (a_hi s) (a_fs s) (a_fe s) (a_hdrs s) (a_mem s) (a_dbg s) (a_haz s).
Definition set_tail (s : ast) x := mka (a_free_head s) x (a_occ s) (a_lo s) (a_hi s) (a_fs s) (a_fe s) (a_hdrs s) (a_mem s) (a_dbg s) (a_haz s).
Definition set_occ (s : ast) x := mka (a_free_head s) (a_tail s) x (a_lo s) (a_hi s) (a_fs s) (a_fe s) (a_hdrs s) (a_mem s) (a_dbg s) (a_haz s).
Definition set_fs (s : ast) x := mka (a_free_head s) (a_tail s) (a_occ s) (a_lo s) (a_hi s) x (a_fe s) (a_hdrs s) (a_mem s) (a_dbg s) (a_haz s).
Definition set_fe (s : ast) x := mka (a_free_head s) (a_tail s) (a_occ s) (a_lo s) (a_hi s) (a_fs s) x (a_hdrs s) (a_mem s) (a_dbg s) (a_haz s).
Definition set_mem (s : ast) x := mka (a_free_head s) (a_tail s) (a_occ s) (a_lo s) (a_hi s) (a_fs s) (a_fe s) (a_hdrs s) x (a_dbg s) (a_haz s).
Definition set_hdr (s : ast) (i : N) (h : hdr) :=
  mka (a_free_head s) (a_tail s) (a_occ s) (a_lo s) (a_hi s) (a_fs s) (a_fe s)
      (fun j => if j =? i then h else a_hdrs s j) (a_mem s) (a_dbg s) (a_haz s).
Definition add_haz (s : ast) (b : bool) (z : hazard) :=
  mka (a_free_head s) (a_tail s) (a_occ s) (a_lo s) (a_hi s) (a_fs s) (a_fe s) (a_hdrs s) (a_mem s) (a_dbg s)
      (if b then z :: a_haz s else a_haz s).

Definition with_prev (h : hdr) p := mkh (h_start h) (h_end h) p (h_next h).
Definition with_next (h : hdr) n := mkh (h_start h) (h_end h) (h_prev h) n.
Definition with_end (h : hdr) e := mkh (h_start h) e (h_prev h) (h_next h).
Definition with_start (h : hdr) a := mkh a (h_end h) (h_prev h) (h_next h).

Definition set_prev s i p := set_hdr s i (with_prev (a_hdrs s i) p).
Definition set_next s i n := set_hdr s i (with_next (a_hdrs s i) n).
Definition set_end s i e := set_hdr s i (with_end (a_hdrs s i) e).
Definition set_start s i a := set_hdr s i (with_start (a_hdrs s i) a).

(** [ptr.align_offset(al)], [al] a power of two. *)
Definition align_offset (a al : N) : N := (al - a mod al) mod al.

(** [wrapping_add] on addresses. *)
Definition wadd (a b : N) : N := (a + b) mod usz.
(** The difference of two addresses, cast to usize: slice.rs:556-561
    remaining, slice.rs:877-881 capacity. *)
Definition wsub (a b : N) : N := if b <=? a then a - b else usz - (b - a).

(** slice.rs:877-881 Header::capacity. *)
Definition capacity (h : hdr) : N := wsub (h_end h) (h_start h).
(** slice.rs:883-887 Header::is_aligned. *)
Definition is_aligned (h : hdr) (al : N) : bool := align_offset (h_start h) al =? 0.
(** slice.rs:556-561 Internal::remaining. *)
Definition remaining (s : ast) : N := wsub (a_fe s) (a_fs s).

(** The states a fresh allocator starts from: slice.rs:122-175 Slice::new on
    the buffer [base, base + size).  [mem]: what the buffer held before. *)
Definition new_slice (dbg : bool) (base size : N) (mem : N -> N) : out ast :=
  if negb (size <=? max_bytes) then Panicked []
  else
    let e := base + size in
    let off := align_offset e hdr_align in
    let hi := if off =? 0 then e
              else let sub := hdr_align - off in
                   if sub <=? size then e - sub else base in
    Done (mka None None None base hi base hi
              (fun _ => mkh 0 0 None None) mem dbg []).

(** Element data may only be touched inside [full.start, free.end). *)
Definition in_data (s : ast) (a n : N) : bool :=
  (n =? 0) || ((a_lo s <=? a) && (a + n <=? a_fe s)).

(** Reading [n] bytes at [a]. *)
Definition peek (mem : N -> N) (a n : N) : bytes :=
  map (fun i => mem (a + N.of_nat i)) (seq 0 (N.to_nat n)).

Definition read_data (s : ast) (a n : N) : out bytes :=
  if in_data s a n then Done (peek (a_mem s) a n) else Undefined (a_haz s).

(** Writing bytes at [a]. *)
Definition poke (mem : N -> N) (a : N) (bs : bytes) : N -> N :=
  fun x => if (a <=? x) && (x <? a + lenN bs) then nth (N.to_nat (x - a)) bs 0 else mem x.

Definition write_data (s : ast) (a : N) (bs : bytes) : out ast :=
  if in_data s a (lenN bs) then Done (set_mem s (poke (a_mem s) a bs)) else Undefined (a_haz s).

(** [ptr::copy_to] (may overlap). *)
Definition copy_data (s : ast) (src dst n : N) : out ast :=
  if in_data s src n && in_data s dst n then
    Done (set_mem s (fun x => if (dst <=? x) && (x <? dst + n) then a_mem s (x - dst + src) else a_mem s x))
  else Undefined (a_haz s).

(** [ptr::copy_to_nonoverlapping]. *)
Definition copy_data_nonoverlapping (s : ast) (src dst n : N) : out ast :=
  if (n =? 0) || (src + n <=? dst) || (dst + n <=? src) then copy_data s src dst n else Undefined (a_haz s).

(** slice.rs:586-596 Internal::unlink. *)
Definition unlink (s : ast) (h : hdr) : ast :=
  let s := match h_next h with
           | Some n => set_prev s n (h_prev h)
           | None => set_tail s (h_prev h)
           end in
  match h_prev h with
  | Some p => set_next s p (h_next h)
  | None => s
  end.

(** slice.rs:613-618 Internal::push_back. *)
Definition push_back (s : ast) (i : N) : ast :=
  let old := a_tail s in
  let s := set_tail s (Some i) in
  match old with
  | Some t => set_next (set_prev s i (Some t)) t (Some i)
  | None => s
  end.

(** slice.rs:598-611 Internal::replace_back. *)
Definition replace_back (s : ast) (i : N) : ast :=
  let p := h_prev (a_hdrs s i) in
  let n := h_next (a_hdrs s i) in
  let s := set_next (set_prev s i None) i None in
  let s := match p with Some p => set_next s p n | None => s end in
  let s := match n with Some n => set_prev s n p | None => s end in
  push_back s i.

(** slice.rs:620-629 Internal::free_region: the header it held, and the
    state. *)
Definition free_region (s : ast) (i : N) : hdr * ast :=
  let s := unlink s (a_hdrs s i) in
  let old := a_hdrs s i in
  let s' := set_free_head s (Some i) in
  (old, set_hdr s' i (mkh (a_lo s) (a_lo s) None (a_free_head s))).

(** slice.rs:631-669 Internal::alloc_header.  [Done (None, s)] is the Rust
    [None]. *)
Definition alloc_header (s : ast) (end_ : N) : out (option N * ast) :=
  match a_free_head s with
  | Some i =>
      let s := set_free_head s None in
      let h := a_hdrs s i in
      let s := add_haz s (match h_next h with Some _ => true | None => false end) Stale in
      Done (Some i, set_end (set_start s i (a_fs s)) i end_)
  | None =>
      if a_dbg s && negb (align_offset (a_fe s) hdr_align =? 0) then Panicked (a_haz s)
      else
        let p := wsub (a_fe s) hdr_size in
        if (p <? a_fs s) || (a_fe s <=? p) then Done (None, s)
        else
          let i := (a_hi s - p) / hdr_size in
          if (i =? 0) || negb (i <? 65536) then Done (None, s)
          else
            let s := add_haz s (p <? end_) Overlap in
            let s := set_hdr s i (mkh (a_fs s) end_ None None) in
            Done (Some i, set_fe s p)
  end.

(** slice.rs:702-734 Internal::align. *)
Definition align (s : ast) (al : N) : out (bool * ast) :=
  let off := align_offset (a_fs s) al in
  if off =? 0 then Done (true, s)
  else if remaining s <? off then Done (false, s)
  else
    let start := wadd (a_fs s) off in
    match a_tail s with
    | Some t => Done (true, set_fs (set_end s t start) start)
    | None =>
        let! (r, s) := alloc_header s start in
        match r with
        | None => Done (false, s)
        | Some i => Done (true, set_fs (push_back s i) start)
        end
    end.

(** slice.rs:671-700 Internal::alloc: [alloc_fresh] is what follows
    the attempt to reuse the occupied region. *)
Definition alloc_fresh (s : ast) (requested al : N) : out (option N * ast) :=
  let! (ok, s) := align s al in
  if negb ok then Done (None, s)
  else if remaining s <? requested then Done (None, s)
  else
    let e := wadd (a_fs s) requested in
    let! (r, s) := alloc_header s e in
    match r with
    | None => Done (None, s)
    | Some i =>
        let s := set_fs s e in
        if a_dbg s && negb (a_fs s <=? a_fe s) then Panicked (a_haz s)
        else Done (Some i, push_back s i)
    end.

Definition alloc (s : ast) (requested al : N) : out (option N * ast) :=
  match a_occ s with
  | Some o =>
      if (requested <=? capacity (a_hdrs s o)) && is_aligned (a_hdrs s o) al
      then Done (Some o, set_occ s None)
      else alloc_fresh s requested al
  | None => alloc_fresh s requested al
  end.

Definition oeqb (a b : option N) : bool :=
  match a, b with
  | Some x, Some y => x =? y
  | None, None => true
  | _, _ => false
  end.

(** slice.rs:769-785 Internal::free_tail. *)
Definition free_tail (s : ast) (i : N) : out ast :=
  if a_dbg s && negb (oeqb (a_tail s) (Some i)) then Panicked (a_haz s)
  else
    let (cur, s) := free_region s i in
    if a_dbg s && negb (oeqb (h_next cur) None) then Panicked (a_haz s)
    else
      match h_prev cur with
      | Some p =>
          if oeqb (a_occ s) (Some p) then
            let s := set_occ s None in
            let (old, s) := free_region s p in
            Done (set_fs s (h_start old))
          else Done (set_fs s (h_start cur))
      | None => Done (set_fs s (h_start cur))
      end.

(** slice.rs:736-767 Internal::free. *)
Definition free (s : ast) (i : N) : out ast :=
  match h_next (a_hdrs s i) with
  | None => free_tail s i
  | Some _ =>
      match h_prev (a_hdrs s i) with
      | None =>
          if a_dbg s && negb (oeqb (a_occ s) None) then Panicked (a_haz s)
          else Done (set_occ s (Some i))
      | Some p =>
          let (old, s) := free_region s i in
          let s := set_end s p (h_end old) in
          Done (match h_next old with
                | None => set_fs s (h_start old)
                | Some _ => s
                end)
      end
  end.

(** slice.rs:787-797 Internal::reserve: the new start of the free space. *)
Definition reserve (s : ast) (additional al : N) : out (option N * ast) :=
  let! (ok, s) := align s al in
  if negb ok then Done (None, s)
  else
    let f := wadd (a_fs s) additional in
    if (a_fe s <? f) || (f <? a_fs s) then Done (None, s)
    else Done (Some f, s).

(** slice.rs:799-862 Internal::realloc: the region that now holds the data.
    The caller has checked [capacity < requested] (slice.rs:361-367).  The sum
    of two capacities wraps; a build with overflow checks would panic, but
    only when a region already has a range with its end below its start. *)
Definition realloc (s : ast) (i len requested al : N) : out (option N * ast) :=
  let h := a_hdrs s i in
  match h_next h with
  | None =>
      let additional := requested - capacity h in
      let! (r, s) := reserve s additional al in
      match r with
      | None => Done (None, s)
      | Some f =>
          let s := set_fs s f in
          Done (Some i, set_end s i (wadd (h_end (a_hdrs s i)) additional))
      end
  | Some _ =>
      if h_start h =? h_end h then
        let! (r, s) := reserve s requested al in
        match r with
        | None => Done (None, s)
        | Some f =>
            let s := set_start s i (a_fs s) in
            let s := set_fs s f in
            let s := set_end s i f in
            Done (Some i, replace_back s i)
        end
      else
        let merge :=
          match h_prev h with
          | Some p =>
              if oeqb (a_occ s) (Some p)
                 && (requested <=? wadd (capacity (a_hdrs s p)) (capacity h))
                 && is_aligned (a_hdrs s p) al
              then Some p else None
          | None => None
          end in
        match merge with
        | Some p =>
            let (old, s) := free_region s i in
            let! s := copy_data s (h_start old) (h_start (a_hdrs s p)) len in
            let s := set_end s p (h_end old) in
            Done (Some p, set_occ s None)
        | None =>
            let! (r, s) := alloc s requested al in
            match r with
            | None => Done (None, s)
            | Some to =>
                let! s := copy_data_nonoverlapping s (h_start (a_hdrs s i)) (h_start (a_hdrs s to)) len in
                let! s := free s i in
                Done (Some to, s)
            end
        end
  end.

(** vec.rs:30-36 Vec<T, &Slice> with slice.rs:237-253 SliceAlloc: [v_sz] and
    [v_al] are size_of::<T>() and align_of::<T>(). *)
Record vec := mkv { v_sz : N; v_al : N; v_region : option N; v_cap : N; v_len : N }.

Definition with_len (v : vec) n := mkv (v_sz v) (v_al v) (v_region v) (v_cap v) n.
Definition with_region (v : vec) r c := mkv (v_sz v) (v_al v) r c (v_len v).

(** slice.rs:270-294 SliceAlloc::as_ptr, as_mut_ptr. *)
Definition as_ptr (s : ast) (v : vec) : N :=
  if v_sz v =? 0 then v_al v
  else match v_region v with
       | Some i => h_start (a_hdrs s i)
       | None => v_al v
       end.

(** slice.rs:296-312 SliceAlloc::capacity. *)
Definition vec_capacity (s : ast) (v : vec) : N :=
  if v_sz v =? 0 then usz - 1
  else match v_region v with
       | Some i => capacity (a_hdrs s i)
       | None => 0
       end.

(** [a + b] on usize. *)
Definition uplus (s : ast) (a b : N) : out N :=
  if a + b <? usz then Done (a + b) else if a_dbg s then Panicked (a_haz s) else Done ((a + b) mod usz).

(** slice.rs:314-378 SliceAlloc::resize. *)
Definition resize (s : ast) (v : vec) (len additional : N) : out (bool * vec * ast) :=
  let! t := uplus s len additional in
  if t <=? v_cap v then Done (true, v, s)
  else if v_sz v =? 0 then Done (true, v, s)
  else match v_region v with
  | None => Done (false, v, s)
  | Some i =>
      let l := len * v_sz v in
      let a := additional * v_sz v in
      if (usz <=? l) || (usz <=? a) || (usz <=? l + a) then Done (false, v, s)
      else
        let requested := l + a in
        if max_bytes <? requested then Done (false, v, s)
        else
          let actual := capacity (a_hdrs s i) in
          if requested <=? actual then Done (true, with_region v (Some i) (actual / v_sz v), s)
          else
            let! (r, s) := realloc s i l requested (v_al v) in
            match r with
            | None => Done (false, v, s)
            | Some j => Done (true, with_region v (Some j) (capacity (a_hdrs s j) / v_sz v), s)
            end
  end.

(** slice.rs:255-267, 440-445, vec.rs:596-603 dropping a SliceAlloc. *)
Definition drop_vec (s : ast) (v : vec) : out ast :=
  if v_sz v =? 0 then Done s
  else match v_region v with
       | Some i => free s i
       | None => Done s
       end.

(** vec.rs:66-71 Vec::new_in, slice.rs:211-232 alloc_empty. *)
Definition vec_new (s : ast) (sz al : N) : out (vec * ast) :=
  if sz =? 0 then Done (mkv sz al None (usz - 1) 0, s)
  else
    let! (r, s) := alloc s 0 al in
    Done (mkv sz al r 0 0, s).

(** vec.rs:111-115 Vec::with_capacity_in.  On failure the buffer is
    dropped. *)
Definition vec_with_capacity (s : ast) (sz al n : N) : out (option vec * ast) :=
  let! (v, s) := vec_new s sz al in
  let! (ok, v, s) := resize s v 0 n in
  if ok : bool then Done (Some v, s)
  else let! s := drop_vec s v in Done (None, s).

(** A misaligned write of a [T] is undefined. *)
Definition write_elems (s : ast) (al a : N) (bs : bytes) : out ast :=
  if (lenN bs =? 0) || (a mod al =? 0) then write_data s a bs else Undefined (a_haz s).

(** boxed.rs:59-63 Box::new_in, slice.rs:182-209 alloc: a box is kept as a
    vector of one element. *)
Definition box_new (s : ast) (sz al : N) (value : bytes) : out (option vec * ast) :=
  if sz =? 0 then Done (Some (mkv sz al None (usz - 1) 1), s)
  else
    let! (r, s) := alloc s sz al in
    match r with
    | None => Done (None, s)
    | Some i =>
        let! s := write_elems s al (h_start (a_hdrs s i)) value in
        Done (Some (mkv sz al (Some i) 1 1), s)
    end.

(** vec.rs:191-197 Vec::reserve. *)
Definition vec_reserve (s : ast) (v : vec) (n : N) : out (bool * vec * ast) :=
  if v_sz v =? 0 then Done (true, v, s) else resize s v (v_len v) n.

(** vec.rs:478-493 Vec::extend_from_slice; vec.rs:244-257 Vec::push is the
    case of one item.  [n]: the number of items, [bs]: their bytes. *)
Definition vec_extend_from_slice (s : ast) (v : vec) (n : N) (bs : bytes) : out (bool * vec * ast) :=
  if v_sz v =? 0 then
    let! l := uplus s (v_len v) n in Done (true, with_len v l, s)
  else
    let! (ok, v, s) := resize s v (v_len v) n in
    if negb ok then Done (false, v, s)
    else
      let! s := write_elems s (v_al v) (as_ptr s v + v_len v * v_sz v) bs in
      let! l := uplus s (v_len v) n in
      Done (true, with_len v l, s).

(** vec.rs:336-340 Vec::as_slice, as bytes. *)
Definition vec_bytes (s : ast) (v : vec) : out bytes :=
  read_data s (as_ptr s v) (v_len v * v_sz v).

(** vec.rs:281-289 Vec::pop. *)
Definition vec_pop (s : ast) (v : vec) : out (option bytes * vec) :=
  if v_len v =? 0 then Done (None, v)
  else
    let l := v_len v - 1 in
    let! x := read_data s (as_ptr s v + l * v_sz v) (v_sz v) in
    Done (Some x, with_len v l).

(** vec.rs:313-317 Vec::clear. *)
Definition vec_clear (v : vec) : vec := with_len v 0.

(** slice.rs:379-437 SliceAlloc::try_merge: [true] when merged. *)
Definition try_merge (s : ast) (v o : vec) : out (bool * ast) :=
  if v_sz v =? 0 then Done (true, s)
  else match v_region v with
  | None => Done (false, s)
  | Some i =>
      let this_len := v_len v * v_sz v in
      let other_len := v_len o * v_sz v in
      let this := a_hdrs s i in
      if a_dbg s && negb (this_len <=? capacity this) then Panicked (a_haz s)
      else if negb (h_end this =? as_ptr s o) then Done (false, s)
      else match h_next this with
      | None => Done (false, s)
      | Some next =>
          let s := add_haz s (negb (oeqb (v_region o) (Some next))) WrongMerge in
          let to := wadd (h_start this) this_len in
          let! s := if h_end this =? to then Done s else copy_data s (h_end this) to other_len in
          let (old, s) := free_region s next in
          Done (true, set_end s i (h_end old))
      end
  end.

(** vec.rs:519-531 Vec::extend; [o] is consumed. *)
Definition vec_extend (s : ast) (v o : vec) : out (bool * vec * ast) :=
  let! (merged, s) := try_merge s v o in
  if merged : bool then
    let! l := uplus s (v_len v) (v_len o) in
    Done (true, with_len v l, s)
  else
    let! bs := vec_bytes s o in
    (* the source of copy_from_nonoverlapping is [o]'s own memory *)
    let src := as_ptr s o in
    let! (ok, v', s) := vec_extend_from_slice s v (v_len o) bs in
    if (ok : bool) && negb (v_sz v =? 0) && negb (lenN bs =? 0)
       && negb ((src + lenN bs <=? as_ptr s v' + v_len v * v_sz v)
                || (as_ptr s v' + v_len v * v_sz v + lenN bs <=? src))
    then Undefined (a_haz s)
    else
      let! s := drop_vec s o in
      Done (ok, v', s).

(** ** Programs: histories of calls on any number of vectors *)

(** A handle is the number of the call that made the vector, counting the
    calls that make vectors. *)
Inductive op :=
| ONew (sz al : N)
| OWithCapacity (sz al n : N)
| OBox (sz al : N) (value : bytes)
| OPush (h : nat) (value : bytes)
| OExtendFromSlice (h : nat) (items : list bytes)
| OReserve (h : nat) (n : N)
| OPop (h : nat)
| OClear (h : nat)
| OExtend (h g : nat)
| ODrop (h : nat).

Inductive reply := RDone | RFailed | RPopped (x : option bytes).

Record world := mkw { w_alloc : ast; w_vecs : list (option vec) }.

Definition get (w : world) (h : nat) : option vec :=
  match nth_error (w_vecs w) h with Some (Some v) => Some v | _ => None end.

Fixpoint put {A} (l : list (option A)) (h : nat) (v : option A) : list (option A) :=
  match l, h with
  | [], _ => []
  | _ :: t, O => v :: t
  | x :: t, S h' => x :: put t h' v
  end.

Definition to_reply (ok : bool) : reply := if ok then RDone else RFailed.

(** One call.  The borrow checker keeps programs from using a vector that has
    been dropped or moved, or extending a vector by itself; such calls are not
    histories at all and are [Panicked] here for want of a better answer. *)
Definition step (w : world) (o : op) : out (reply * world) :=
  let s := w_alloc w in
  let vs := w_vecs w in
  match o with
  | ONew sz al =>
      let! (v, s) := vec_new s sz al in
      Done (RDone, mkw s (vs ++ [Some v]))
  | OWithCapacity sz al n =>
      let! (r, s) := vec_with_capacity s sz al n in
      Done (to_reply (match r with Some _ => true | None => false end), mkw s (vs ++ [r]))
  | OBox sz al value =>
      let! (r, s) := box_new s sz al value in
      Done (to_reply (match r with Some _ => true | None => false end), mkw s (vs ++ [r]))
  | OPush h value =>
      match get w h with
      | None => Panicked []
      | Some v =>
          let! (ok, v, s) := vec_extend_from_slice s v 1 value in
          Done (to_reply ok, mkw s (put vs h (Some v)))
      end
  | OExtendFromSlice h items =>
      match get w h with
      | None => Panicked []
      | Some v =>
          let! (ok, v, s) := vec_extend_from_slice s v (lenN items) (concat items) in
          Done (to_reply ok, mkw s (put vs h (Some v)))
      end
  | OReserve h n =>
      match get w h with
      | None => Panicked []
      | Some v =>
          let! (ok, v, s) := vec_reserve s v n in
          Done (to_reply ok, mkw s (put vs h (Some v)))
      end
  | OPop h =>
      match get w h with
      | None => Panicked []
      | Some v =>
          let! (x, v) := vec_pop s v in
          Done (RPopped x, mkw s (put vs h (Some v)))
      end
  | OClear h =>
      match get w h with
      | None => Panicked []
      | Some v => Done (RDone, mkw s (put vs h (Some (vec_clear v))))
      end
  | OExtend h g =>
      if Nat.eqb h g then Panicked []
      else match get w h, get w g with
      | Some v, Some o =>
          let! (ok, v, s) := vec_extend s v o in
          Done (to_reply ok, mkw s (put (put vs h (Some v)) g None))
      | _, _ => Panicked []
      end
  | ODrop h =>
      match get w h with
      | None => Panicked []
      | Some v =>
          let! s := drop_vec s v in
          Done (RDone, mkw s (put vs h None))
      end
  end.

(** A whole history. *)
Fixpoint run (w : world) (ops : list op) : out (list reply * world) :=
  match ops with
  | [] => Done ([], w)
  | o :: t =>
      let! (r, w) := step w o in
      let! (rs, w) := run w t in
      Done (r :: rs, w)
  end.

(** What a program sees of a vector: its contents, cut into elements. *)
Fixpoint chunks (n : nat) (sz : N) (bs : bytes) : list bytes :=
  match n with
  | O => []
  | S n' => firstn (N.to_nat sz) bs :: chunks n' sz (skipn (N.to_nat sz) bs)
  end.

Definition vec_items (s : ast) (v : vec) : out (list bytes) :=
  let! bs := vec_bytes s v in Done (chunks (N.to_nat (v_len v)) (v_sz v) bs).
