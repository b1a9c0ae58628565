(** Model of crates/musli/src/int: continuation (LEB128) encoding, zigzag,
    fixed-width integers and lengths. *)
From Verif Require Import Base Options.
Local Open Scope N_scope.

(** The primitive integer widths implemented by [implement_ops!],
    int/traits.rs:193-197. *)
Inductive iw := W8 | W16 | W32 | W64 | W128.

(** [Unsigned::BITS], int/traits.rs:101 *)
Definition bits (w : iw) : N :=
  match w with W8 => 8 | W16 => 16 | W32 => 32 | W64 => 64 | W128 => 128 end.

(** [Unsigned::BYTES], int/traits.rs:100 *)
Definition nbytes (w : iw) : nat :=
  match w with W8 => 1%nat | W16 => 2%nat | W32 => 4%nat | W64 => 8%nat | W128 => 16%nat end.

(** usize::BITS on the target, int/traits.rs:198 *)
Definition usize_bits (p : plat) : N := ptr_bits (ptr p).

(** Reader::read_byte for slices, reader.rs:275-286 *)
Definition read_byte : dec N :=
  fun bs => match bs with [] => Err | b :: r => Ok (b, r) end.

(** Reader::read_array / read_bytes / read_bytes_uninit for slices,
    reader.rs:243-272, 289-312: all fail without enough input and otherwise
    deliver the next [n] bytes. *)
Definition read_bytes (n : N) : dec bytes :=
  fun bs => match take_opt n bs with Some (h, t) => Ok (h, t) | None => Err end.

(** Constants, int/continuation.rs:9-10 *)
Definition MASK_BYTE : N := 127.
Definition CONT_BYTE : N := 128.

(** The [while] loop of [continuation::decode], int/continuation.rs:29-38, entered
    with a byte that has the continuation bit set. [b] is a parameter of
    [T = uN] with [N] = [tbits]. *)
Fixpoint cont_loop (tbits shift value : N) (bs : bytes) {struct bs} : res (N * bytes) :=
  let shift := shift + 7 in
  if tbits <=? shift then Err
  else
    match bs with
    | [] => Err
    | b :: r =>
        let part := N.shiftl (N.land b MASK_BYTE) shift mod 2 ^ tbits in
        let value := (value + part) mod 2 ^ tbits in
        if N.land b CONT_BYTE =? CONT_BYTE then cont_loop tbits shift value r
        else Ok (value, r)
    end.

(** [continuation::decode], int/continuation.rs:14-41. [T::from_byte] is the
    zero extension. *)
Definition cont_decode (tbits : N) : dec N :=
  fun bs =>
    let* (b, r) := read_byte bs in
    if N.land b CONT_BYTE =? 0 then Ok (b, r)
    else cont_loop tbits 0 (N.land b MASK_BYTE) r.

(** The [loop] of [continuation::encode], int/continuation.rs:58-68. [fuel] bounds
    the rounds; [cont_encode] gives one per bit of the value, and
    [IntFacts.cont_encode_eq] shows that this is always enough. *)
Fixpoint cont_enc_loop (fuel : nat) (b value : N) : bytes :=
  match fuel with
  | O => []
  | S f =>
      let value := N.shiftr value 7 in
      if value =? 0 then [N.land b MASK_BYTE]
      else N.lor b CONT_BYTE :: cont_enc_loop f (value mod 256) value
  end.

(** [continuation::encode], int/continuation.rs:45-71 *)
Definition cont_encode (value : N) : bytes :=
  if value <? CONT_BYTE then [value mod 256]
  else cont_enc_loop (S (N.to_nat (N.size value))) (value mod 256) value.

(** [as uN] of a signed integer (two's complement), int/traits.rs:92-94 *)
Definition to_u (tbits : N) (z : Z) : N := Z.to_N (z mod 2 ^ Z.of_N tbits)%Z.

(** [as iN] of an unsigned integer (two's complement), int/traits.rs:106-108 *)
Definition to_s (tbits : N) (n : N) : Z :=
  if n <? 2 ^ (tbits - 1) then Z.of_N n else (Z.of_N n - 2 ^ Z.of_N tbits)%Z.

(** [zigzag::encode], int/zigzag.rs:9-14: arithmetic shift right by [BITS - 1],
    xor the value shifted left by one. *)
Definition zig_encode (tbits : N) (x : Z) : N :=
  N.lxor (to_u tbits (Z.shiftr x (Z.of_N tbits - 1))) (to_u tbits (Z.shiftl x 1)).

(** [zigzag::decode], int/zigzag.rs:18-23 *)
Definition zig_decode (tbits : N) (x : N) : Z :=
  Z.lxor (to_s tbits (N.shiftr x 1)) (- to_s tbits (N.land x 1)).

(** Little-endian bytes of a value ([to_le_bytes]). *)
Fixpoint to_le (n : nat) (v : N) : bytes :=
  match n with
  | O => []
  | S m => v mod 256 :: to_le m (v / 256)
  end.

(** [from_le_bytes] *)
Fixpoint of_le (bs : bytes) : N :=
  match bs with
  | [] => 0
  | b :: r => b + 256 * of_le r
  end.

(** [to_ne_bytes] / [from_ne_bytes] on the target. *)
Definition to_ne (p : plat) (n : nat) (v : N) : bytes :=
  match native_bo p with Little => to_le n v | Big => rev (to_le n v) end.
Definition of_ne (p : plat) (bs : bytes) : N :=
  match native_bo p with Little => of_le bs | Big => of_le (rev bs) end.

(** [swap_bytes] of an integer of [n] bytes. *)
Definition swap_bytes (n : nat) (v : N) : N := of_le (rev (to_le n v)).

(** [UnsignedOps::write_bytes], int/traits.rs:150-167 *)
Definition write_int (p : plat) (bo : ByteOrder) (n : nat) (v : N) : bytes :=
  let v := if byteorder_eqb bo (native_bo p) then v else swap_bytes n v in
  to_ne p n v.

(** [UnsignedOps::read_bytes], int/traits.rs:170-189 *)
Definition read_int (p : plat) (bo : ByteOrder) (n : nat) : dec N :=
  fun bs =>
    let* (h, r) := read_bytes (N.of_nat n) bs in
    let v := of_ne p h in
    Ok (if byteorder_eqb bo (native_bo p) then v else swap_bytes n v, r).

(** [encode_unsigned], int/encoding.rs:8-26 *)
Definition encode_unsigned (p : plat) (o : N) (w : iw) (v : N) : bytes :=
  match integer_value o with
  | IVariable => cont_encode v
  | IFixed => write_int p (byteorder_value o) (nbytes w) v
  end.

(** [decode_unsigned], int/encoding.rs:30-46 *)
Definition decode_unsigned (p : plat) (o : N) (w : iw) : dec N :=
  match integer_value o with
  | IVariable => cont_decode (bits w)
  | IFixed => read_int p (byteorder_value o) (nbytes w)
  end.

(** [encode_signed], int/encoding.rs:50-67 *)
Definition encode_signed (p : plat) (o : N) (w : iw) (v : Z) : bytes :=
  match integer_value o with
  | IVariable => cont_encode (zig_encode (bits w) v)
  | IFixed => write_int p (byteorder_value o) (nbytes w) (to_u (bits w) v)
  end.

(** [decode_signed], int/encoding.rs:72-92 *)
Definition decode_signed (p : plat) (o : N) (w : iw) : dec Z :=
  match integer_value o with
  | IVariable =>
      fun bs => let* (v, r) := cont_decode (bits w) bs in Ok (zig_decode (bits w) v, r)
  | IFixed =>
      fun bs =>
        let* (v, r) := read_int p (byteorder_value o) (nbytes w) bs in
        Ok (to_s (bits w) v, r)
  end.

(** [width_arm!], options.rs:416-435: every non-variable width other than 8, 16 and
    32 bits is 64 bits. *)
Definition width_int (w : Width) : iw :=
  match w with WU8 => W8 | WU16 => W16 | WU32 => W32 | _ => W64 end.

(** [encode_usize], int/encoding.rs:96-123. [<$ty>::try_from(value)] fails when the
    value does not fit. *)
Definition encode_usize (p : plat) (o : N) (v : N) : res bytes :=
  match length_value o with
  | WVariable => Ok (cont_encode v)
  | w =>
      let i := width_int w in
      if v <? 2 ^ bits i then Ok (write_int p (byteorder_value o) (nbytes i) v) else Err
  end.

(** [decode_usize], int/encoding.rs:127-156 *)
Definition decode_usize (p : plat) (o : N) : dec N :=
  match length_value o with
  | WVariable => cont_decode (usize_bits p)
  | w =>
      fun bs =>
        let* (v, r) := read_int p (byteorder_value o) (nbytes (width_int w)) bs in
        if v <? 2 ^ usize_bits p then Ok (v, r) else Err
  end.
