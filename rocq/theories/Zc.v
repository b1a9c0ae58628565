(** Model of musli-zerocopy: the [ZeroCopy] trait and its derived
    implementations (validation, padding, byte swapping), together with the
    part of Rust's type layout they rely on.

    Layout.  The size, alignment and field offsets computed by rustc for
    [repr(C)], [repr(packed)], [repr(align)], [repr(transparent)] and
    primitive-representation enums are part of the language reference, not of
    the repository; [align_of], [size_of] and [mem_of] write them down.  The
    repository's own arithmetic ([padding_to], [Padder], [Validator]) is
    modelled separately and compared with them. *)
From Verif Require Import Base Options Int Utf8.
Local Open Scope N_scope.

(** Result of an operation which may return an error, panic, or - because the
    code is [unsafe] - touch memory it must not. *)
Inductive zres (A : Type) : Type := ZOk (a : A) | ZErr | ZPanic | ZUb.
Arguments ZOk {A} a.
Arguments ZErr {A}.
Arguments ZPanic {A}.
Arguments ZUb {A}.

Definition zbind {A B} (r : zres A) (f : A -> zres B) : zres B :=
  match r with ZOk a => f a | ZErr => ZErr | ZPanic => ZPanic | ZUb => ZUb end.
Notation "'let+' x := e 'in' k" := (zbind e (fun x => k))
  (at level 200, x pattern, e at level 100, k at level 200).

(** The types implementing [ZeroCopy].  [w] is a size in bytes and [al] an
    alignment, which differs between targets.

    - [ZInt]: integers, floats, [Option<NonZero..>], traits.rs:753-872, 1062-1091
    - [ZNonZero]: traits.rs:988-1023; [ZBool]: 918-943; [ZChar]: 878-904
    - [ZUnit]: [()] and [PhantomData], traits.rs:1118-1182
    - [ZArray]: traits.rs:1210-1242
    - [ZStruct pk al fs]: derived struct, [pk] its [packed(N)], [al] its
      [align(N)], musli-zerocopy-macros zero_copy/mod.rs:152-279
    - [ZEnum dw dal al vs sw]: derived enum with a primitive representation of
      [dw] bytes, its variants' discriminants and fields; [sw] is the resolved
      [swap] table, zero_copy/mod.rs:280-596
    - [ZSelf]: a type marked [swap_bytes_self] ([Endian], [Ref]),
      zero_copy/mod.rs:622-626

    [Wrapping<T>] (traits.rs:213-239) is [ZStruct None None [T]];
    [repr(transparent)] structs (zero_copy/mod.rs:167-184) behave exactly like
    their single field and are represented by it; [#[zero_copy(ignore)]] fields
    are zero-sized and omitted. *)
Inductive zty :=
| ZInt (w : nat) (al : N)
| ZNonZero (w : nat) (al : N)
| ZBool
| ZChar
| ZUnit
| ZArray (t : zty) (n : nat)
| ZStruct (pk al : option N) (fs : list zty)
| ZEnum (dw : nat) (dal : N) (al : option N) (vs : list (N * list zty)) (sw : option (list nat))
| ZSelf (t : zty).

(** Values. Integers are given by their bit pattern read as a number. *)
Inductive zval :=
| VI (n : N)
| VB (b : bool)
| VC (c : N)
| VU
| VArr (vs : list zval)
| VSt (vs : list zval)
| VEn (i : nat) (vs : list zval).

(** ** Type layout (Rust reference, "Type layout") *)

Definition round_up (n al : N) : N := (n + al - 1) / al * al.

Definition opt_al (o : option N) : N := match o with Some a => a | None => 1 end.

(** The alignment a field has inside its struct. *)
Definition cap_al (pk : option N) (al : N) : N :=
  match pk with Some p => N.min p al | None => al end.

Fixpoint align_of (t : zty) : N :=
  match t with
  | ZInt _ al | ZNonZero _ al => al
  | ZBool => 1
  | ZChar => 4
  | ZUnit => 1
  | ZArray t _ => align_of t
  | ZStruct pk al fs => fold_right (fun f a => N.max (cap_al pk (align_of f)) a) (opt_al al) fs
  | ZEnum _ dal al vs _ =>
      fold_right (fun dv a => fold_right (fun f a => N.max (align_of f) a) a (snd dv))
        (N.max dal (opt_al al)) vs
  | ZSelf t => align_of t
  end.

Fixpoint size_of (t : zty) : N :=
  match t with
  | ZInt w _ | ZNonZero w _ => N.of_nat w
  | ZBool => 1
  | ZChar => 4
  | ZUnit => 0
  | ZArray t n => N.of_nat n * size_of t
  | ZStruct pk al fs =>
      round_up (fold_left (fun off f => round_up off (cap_al pk (align_of f)) + size_of f) fs 0)
        (align_of t)
  | ZEnum dw dal al vs _ =>
      round_up
        (fold_right (fun dv m =>
           N.max (fold_left (fun off f => round_up off (align_of f) + size_of f) (snd dv) (N.of_nat dw)) m)
           (N.of_nat dw) vs)
        (align_of t)
  | ZSelf t => size_of t
  end.

(** Bytes of an integer in a given order. *)
Definition int_mem (bo : ByteOrder) (w : nat) (n : N) : bytes :=
  match bo with Little => to_le w n | Big => rev (to_le w n) end.
Definition mem_int (bo : ByteOrder) (bs : bytes) : N :=
  match bo with Little => of_le bs | Big => of_le (rev bs) end.

Definition pads (n : N) : list (option N) := repeat None (N.to_nat n).

(** The memory of a value when integers are laid out in order [bo]: [None] is a
    padding byte, which may hold anything. *)
Fixpoint mem_of (bo : ByteOrder) (t : zty) (v : zval) {struct t} : list (option N) :=
  match t, v with
  | ZInt w _, VI n => map Some (int_mem bo w n)
  | ZNonZero w _, VI n => map Some (int_mem bo w n)
  | ZBool, VB b => [Some (if b then 1 else 0)]
  | ZChar, VC c => map Some (int_mem bo 4 c)
  | ZUnit, VU => []
  | ZArray t _, VArr vs => concat (map (mem_of bo t) vs)
  | ZStruct pk _ fs, VSt vs =>
      let body :=
        (fix go (off : N) (fs : list zty) (vs : list zval) {struct fs} : list (option N) :=
           match fs, vs with
           | f :: fs, v :: vs =>
               let o := round_up off (cap_al pk (align_of f)) in
               pads (o - off) ++ mem_of bo f v ++ go (o + size_of f) fs vs
           | _, _ => []
           end) 0 fs vs in
      body ++ pads (size_of t - lenN body)
  | ZEnum dw _ _ vars _, VEn i vs =>
      let body :=
        (fix sel (vars : list (N * list zty)) (i : nat) {struct vars} : list (option N) :=
           match vars, i with
           | (d, fs) :: _, O =>
               map Some (int_mem bo dw d) ++
               (fix go (off : N) (fs : list zty) (vs : list zval) {struct fs} : list (option N) :=
                  match fs, vs with
                  | f :: fs, v :: vs =>
                      let o := round_up off (align_of f) in
                      pads (o - off) ++ mem_of bo f v ++ go (o + size_of f) fs vs
                  | _, _ => []
                  end) (N.of_nat dw) fs vs
           | _ :: r, S j => sel r j
           | [], _ => []
           end) vars i in
      body ++ pads (size_of t - lenN body)
  | ZSelf t, v => mem_of bo t v
  | _, _ => []
  end.

(** ** Constants of the trait *)

(** [PADDED], traits.rs:218, 787, 838, 880, 920, 990, 1064, 1146, 1215;
    zero_copy/mod.rs:240 (struct), 414-418, 573 (enum) *)
Fixpoint padded (t : zty) : bool :=
  match t with
  | ZInt _ _ | ZNonZero _ _ | ZBool | ZChar | ZUnit => false
  | ZArray t _ => padded t
  | ZStruct _ _ fs =>
      (fold_left (fun s f => s + size_of f) fs 0 <? size_of t) || existsb padded fs
  | ZEnum dw _ _ vs _ =>
      existsb (fun dv =>
        (fold_left (fun s f => s + size_of f) (snd dv) (N.of_nat dw) <? size_of t)
        || existsb padded (snd dv)) vs
  | ZSelf t => padded t
  end.

(** [ANY_BITS], traits.rs:217, 786, 837, 879, 919, 989, 1063, 1145, 1214;
    zero_copy/mod.rs:255 (struct), 572 (enum) *)
Fixpoint any_bits (t : zty) : bool :=
  match t with
  | ZInt _ _ | ZUnit => true
  | ZNonZero _ _ | ZBool | ZChar => false
  | ZArray t _ => any_bits t
  | ZStruct _ _ fs => forallb any_bits fs
  | ZEnum _ _ _ _ _ => false
  | ZSelf t => any_bits t
  end.

(** [CAN_SWAP_BYTES], traits.rs:219, 788, 839, 881, 921, 991, 1065, 1147, 1216;
    zero_copy/mod.rs:241 (struct), 449-541, 574 (enum), 622-626
    (swap_bytes_self).  The conditions [disc(a) == swap_bytes(disc(b))] are
    generated for the variants carrying a [swap] attribute; the condition of a
    variant without one is that of the variant naming it. *)
Fixpoint can_swap (t : zty) : bool :=
  match t with
  | ZInt _ _ | ZNonZero _ _ | ZBool | ZUnit => true
  | ZChar => false
  | ZArray t _ => can_swap t
  | ZStruct _ _ fs => forallb can_swap fs
  | ZEnum dw _ _ vs sw =>
      match sw with
      | None => false
      | Some tbl =>
          (length tbl =? length vs)%nat &&
          forallb (fun '(dv, j) =>
            match nth_error vs j with
            | Some dv' => fst dv =? swap_bytes dw (fst dv')
            | None => false
            end) (combine vs tbl)
      end && forallb (fun dv => forallb can_swap (snd dv)) vs
  | ZSelf _ => true
  end.

(** ** Byte swapping *)

Definition bo_eqb (a b : ByteOrder) : bool :=
  match a, b with Little, Little | Big, Big => true | _, _ => false end.

(** [ByteOrder::swap_*], endian/mod.rs:359-517: [from_le]/[to_le] and
    [from_be]/[to_be] swap exactly when the order is not the native one. *)
Definition swap_int (nat_bo e : ByteOrder) (w : nat) (n : N) : N :=
  if bo_eqb nat_bo e then n else swap_bytes w n.

(** [ZeroCopy::swap_bytes::<E>] on a target of byte order [nb].  Numbers:
    traits.rs:799-804, 849-854; bool, char: 898-903, 937-942 (identity); non-zero:
    1009-1020, 1076-1090; zero-sized: 1159-1164; arrays: 1235-1241; derived:
    zero_copy/mod.rs:178-183, 220-225 (struct), 485-504, 530-537, 565-569 (enum),
    wrapped in [try_map], 655-657, endian/mod.rs:360-376, 440-456. *)
Fixpoint zswap (nb e : ByteOrder) (t : zty) (v : zval) {struct t} : zval :=
  match t, v with
  | ZInt w _, VI n => VI (swap_int nb e w n)
  | ZNonZero w _, VI n => VI (swap_int nb e w n)
  | ZBool, v | ZChar, v | ZUnit, v => v
  | ZArray t _, VArr vs => VArr (map (zswap nb e t) vs)
  | ZStruct _ _ fs, VSt vs =>
      if bo_eqb nb e then v else
      VSt ((fix go (fs : list zty) (vs : list zval) {struct fs} : list zval :=
              match fs, vs with
              | f :: fs, v :: vs => zswap nb e f v :: go fs vs
              | _, _ => []
              end) fs vs)
  | ZEnum _ _ _ vars sw, VEn i vs =>
      if bo_eqb nb e then v else
      VEn (match sw with Some tbl => nth i tbl i | None => i end)
        ((fix sel (vars : list (N * list zty)) (i : nat) {struct vars} : list zval :=
            match vars, i with
            | (_, fs) :: _, O =>
                (fix go (fs : list zty) (vs : list zval) {struct fs} : list zval :=
                   match fs, vs with
                   | f :: fs, v :: vs => zswap nb e f v :: go fs vs
                   | _, _ => []
                   end) fs vs
            | _ :: r, S j => sel r j
            | [], _ => []
            end) vars i)
  | ZSelf _, v => v
  | _, v => v
  end.

(** [Endian::new], endian/endian.rs:138-147; [Endian::to_ne], 162-168;
    [Endian::to_raw], 182-184: the wrapper stores the swapped value. *)
Definition endian_new (nb e : ByteOrder) (t : zty) (v : zval) : zval := zswap nb e t v.
Definition endian_to_ne (nb e : ByteOrder) (t : zty) (raw : zval) : zval := zswap nb e t raw.

(** [endian::from_endian], endian/mod.rs:280-286 *)
Definition from_endian (nb e : ByteOrder) (t : zty) (v : zval) : zval :=
  zswap nb nb t (zswap nb e t v).

(** ** Padding *)

(** [buf::padding_to], buf/mod.rs:220-223 *)
Definition padding_to (len align : N) : N :=
  let mask := align - 1 in
  N.land (align - N.land len mask) mask.

Definition zeros (n : N) : bytes := repeat 0 (N.to_nat n).

(** [Padder::pad_with::<F>], padder.rs:79-96, on the state (offset, bytes
    before it, bytes from it to the end of the allocation); [padF] is the body
    of lines 88-93. Writing or stepping outside the allocation is undefined. *)
Definition pad_with (al sz : N) (padF : bytes -> zres bytes) (st : N * bytes * bytes)
  : zres (N * bytes * bytes) :=
  let '(off, pre, rest) := st in
  let count := padding_to off al in
  match take_opt count rest with
  | None => ZUb
  | Some (_, rest) =>
      let+ rest := padF rest in
      match take_opt sz rest with
      | None => ZUb
      | Some (h, rest) => ZOk (off + count + sz, pre ++ zeros count ++ h, rest)
      end
  end.

(** [Padder::remaining], padder.rs:140-146 ([size - offset] underflows when the
    offset is past the end: a panic with overflow checks, a wild write
    without). *)
Definition remaining (size : N) (st : N * bytes * bytes) : zres bytes :=
  let '(off, pre, rest) := st in
  if size <? off then ZUb else
  match take_opt (size - off) rest with
  | None => ZUb
  | Some (_, rest) => ZOk (pre ++ zeros (size - off) ++ rest)
  end.

(** [pad] followed by [remaining] on the memory starting at the value and
    extending to the end of its allocation: traits.rs:791 ... 1219-1223 and
    zero_copy/mod.rs:169-171, 191-213 (struct), 398-402, 543-552 (enum);
    [Padder::pad_discriminant], padder.rs:107-118. *)
Fixpoint zpad (nb : ByteOrder) (t : zty) (m : bytes) {struct t} : zres bytes :=
  match t with
  | ZInt _ _ | ZNonZero _ _ | ZBool | ZChar | ZUnit => remaining (size_of t) (0, [], m)
  | ZArray f n =>
      let+ st := (fix go (n : nat) st : zres (N * bytes * bytes) :=
         match n with
         | O => ZOk st
         | S n =>
             let+ st := pad_with (align_of f) (size_of f)
                          (fun r => if padded f then zpad nb f r else ZOk r) st in
             go n st
         end) n (0, [], m) in
      remaining (size_of t) st
  | ZStruct pk _ fs =>
      let+ st := (fix go (fs : list zty) st {struct fs} : zres (N * bytes * bytes) :=
         match fs with
         | [] => ZOk st
         | f :: fs =>
             let+ st := pad_with (match pk with Some p => p | None => align_of f end) (size_of f)
                          (fun r => if padded f then zpad nb f r else ZOk r) st in
             go fs st
         end) fs (0, [], m) in
      remaining (size_of t) st
  | ZEnum dw dal _ vs _ =>
      (* the discriminant is read at offset 0: padding_to 0 _ = 0 *)
      match take_opt (N.of_nat dw) m with
      | None => ZUb
      | Some (db, rest) =>
          let d := mem_int nb db in
          (fix sel (vs : list (N * list zty)) {struct vs} : zres bytes :=
             match vs with
             | [] => ZPanic (* unknown_discriminant, lib.rs:931-936 *)
             | (d', fs) :: r =>
                 if d =? d' then
                   let+ st := (fix go (fs : list zty) st {struct fs} : zres (N * bytes * bytes) :=
                      match fs with
                      | [] => ZOk st
                      | f :: fs =>
                          let+ st := pad_with (align_of f) (size_of f)
                                       (fun r => if padded f then zpad nb f r else ZOk r) st in
                          go fs st
                      end) fs (N.of_nat dw, db, rest) in
                   remaining (size_of t) st
                 else sel r
             end) vs
      end
  | ZSelf t => zpad nb t m
  end.

(** [store_unaligned], buf/mod.rs:237-249, [initialize_padding],
    traits.rs:455-464, [MaybeUninit::write], mem/maybe_uninit.rs:94-103: the
    value's memory [m] (of [size_of t] bytes, padding bytes undetermined) is
    copied and its padding cleared. *)
Definition store_mem (nb : ByteOrder) (t : zty) (m : bytes) : zres bytes :=
  if padded t then zpad nb t m else ZOk m.

(** ** Validation *)

(** Steps of the validator on (address of the next byte, bytes from it to the
    end of the allocation). [align_with], validator.rs:264-267: the offset
    comes from the address ([align_offset]). [advance], 271-273. *)
Definition v_skip (n : N) (st : N * bytes) : zres (N * bytes) :=
  let '(addr, rest) := st in
  match take_opt n rest with
  | None => ZUb
  | Some (_, rest) => ZOk (addr + n, rest)
  end.
Definition v_align (al : N) (st : N * bytes) : zres (N * bytes) :=
  v_skip (padding_to (fst st) al) st.

(** [validate_with::<F>], validator.rs:182-187, 232-240 *)
Definition v_with (al sz : N) (valF : N -> bytes -> zres unit) (st : N * bytes) : zres (N * bytes) :=
  let+ st := v_align al st in
  let+ _ := valF (fst st) (snd st) in
  v_skip sz st.

(** [ZeroCopy::validate] with a fresh validator at address [addr]. char:
    traits.rs:887-895; bool: 927-934; non-zero: 997-1006; arrays: 1226-1232
    ([validate_only], validator.rs:251-259, does not align); derived:
    zero_copy/mod.rs:173-175, 197-213, 388-392, 554-563; the discriminant is
    read by [Validator::field], validator.rs:92-105. *)
Fixpoint zvalidate (nb : ByteOrder) (t : zty) (addr : N) (rest : bytes) {struct t} : zres unit :=
  match t with
  | ZInt _ _ | ZUnit => ZOk tt
  | ZNonZero w _ =>
      match take_opt (N.of_nat w) rest with
      | None => ZUb
      | Some (h, _) => if mem_int nb h =? 0 then ZErr else ZOk tt
      end
  | ZBool =>
      match rest with
      | [] => ZUb
      | b :: _ => if (b =? 0) || (b =? 1) then ZOk tt else ZErr
      end
  | ZChar =>
      match take_opt 4 rest with
      | None => ZUb
      | Some (h, _) => if char_valid (mem_int nb h) then ZOk tt else ZErr
      end
  | ZArray f n =>
      let+ _ := (fix go (n : nat) (st : N * bytes) : zres (N * bytes) :=
         match n with
         | O => ZOk st
         | S n =>
             let+ _ := zvalidate nb f (fst st) (snd st) in
             let+ st := v_skip (size_of f) st in
             go n st
         end) n (addr, rest) in
      ZOk tt
  | ZStruct pk _ fs =>
      let+ _ := (fix go (fs : list zty) (st : N * bytes) {struct fs} : zres (N * bytes) :=
         match fs with
         | [] => ZOk st
         | f :: fs =>
             let+ st := v_with (match pk with Some p => p | None => align_of f end) (size_of f)
                          (zvalidate nb f) st in
             go fs st
         end) fs (addr, rest) in
      ZOk tt
  | ZEnum dw dal _ vs _ =>
      let+ st := v_align dal (addr, rest) in
      match take_opt (N.of_nat dw) (snd st) with
      | None => ZUb
      | Some (db, rest) =>
          let d := mem_int nb db in
          let st := (fst st + N.of_nat dw, rest) in
          (fix sel (vs : list (N * list zty)) {struct vs} : zres unit :=
             match vs with
             | [] => ZErr
             | (d', fs) :: r =>
                 if d =? d' then
                   let+ _ := (fix go (fs : list zty) (st : N * bytes) {struct fs} : zres (N * bytes) :=
                      match fs with
                      | [] => ZOk st
                      | f :: fs =>
                          let+ st := v_with (align_of f) (size_of f) (zvalidate nb f) st in
                          go fs st
                      end) fs st in
                   ZOk tt
                 else sel r
             end) vs
      end
  | ZSelf t => zvalidate nb t addr rest
  end.
