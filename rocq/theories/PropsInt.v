(** Properties C01-C04, C06: integer and length encodings.
    Specifications used: [IntSpec.v]. *)
From Verif Require Import Base Options Int IntSpec BaseFacts IntFacts.
Local Open Scope N_scope.

(** An options value used by the examples: big endian fixed integers, 16-bit
    lengths. *)
Definition ex_plat : plat := {| native_bo := Little; ptr := P64 |}.
Definition ex_fixed : N := build ex_plat [CInteger IFixed; CByteOrder Big; CPointer WU16].

(** * C01 *)

(** Round trip, exact consumption, independence of what follows. *)
Theorem C01_variable_roundtrip :
  forall p o w v rest, integer_value o = IVariable -> v < 2 ^ bits w ->
    decode_unsigned p o w (encode_unsigned p o w v ++ rest) = Ok (v, rest).
Proof. exact (fun p o w v rest _ => unsigned_roundtrip p o w v rest). Qed.
Print Assumptions C01_variable_roundtrip.

Example C01_variable_roundtrip_nonvacuous :
  integer_value opt_new = IVariable /\
  encode_unsigned ex_plat opt_new W32 4294967295 = [255; 255; 255; 255; 15] /\
  decode_unsigned ex_plat opt_new W32 ([255; 255; 255; 255; 15] ++ [7]) = Ok (4294967295, [7]).
Proof. vm_compute. repeat split. Qed.

(** What is written: the 7-bit groups of the number, least significant first, all but
    the last marked; as few as possible. *)
Theorem C01_variable_format :
  forall p o w v rest, integer_value o = IVariable ->
    let e := encode_unsigned p o w v in
    leb_split (e ++ rest) = Some (e, rest) /\ leb_value e = v /\
    lenN e = 1 + N.log2 v / 7 /\ bytes_ok e = true.
Proof. exact variable_format. Qed.
Print Assumptions C01_variable_format.

Example C01_variable_format_nonvacuous :
  encode_unsigned ex_plat opt_new W16 300 = [172; 2] /\ 1 + N.log2 300 / 7 = 2.
Proof. vm_compute. split; reflexivity. Qed.

(** * C02 *)

Theorem C02_zigzag_roundtrip :
  forall w z, signed_range (bits w) z -> zig_decode (bits w) (zig_encode (bits w) z) = z.
Proof. exact zigzag_rt. Qed.
Print Assumptions C02_zigzag_roundtrip.

(** Together with the previous theorem: a bijection between the two ranges. *)
Theorem C02_zigzag_bijection :
  forall w, (forall z, signed_range (bits w) z -> zig_encode (bits w) z < 2 ^ bits w) /\
    (forall n, n < 2 ^ bits w ->
       signed_range (bits w) (zig_decode (bits w) n) /\
       zig_encode (bits w) (zig_decode (bits w) n) = n).
Proof. exact zigzag_bij. Qed.
Print Assumptions C02_zigzag_bijection.

Theorem C02_zigzag_small :
  forall w z, signed_range (bits w) z -> (Z.of_N (zig_encode (bits w) z) <= 2 * Z.abs z)%Z.
Proof. exact zigzag_small. Qed.
Print Assumptions C02_zigzag_small.

Theorem C02_signed_roundtrip :
  forall p o w z rest, signed_range (bits w) z ->
    decode_signed p o w (encode_signed p o w z ++ rest) = Ok (z, rest).
Proof. exact (fun p o w z rest => signed_roundtrip p o w z rest). Qed.
Print Assumptions C02_signed_roundtrip.

Example C02_nonvacuous :
  signed_range (bits W64) (-9223372036854775808) /\
  zig_encode 64 (-9223372036854775808) = 18446744073709551615 /\
  encode_signed ex_plat opt_new W8 (-3) = [5] /\
  decode_signed ex_plat opt_new W8 [5; 9] = Ok ((-3)%Z, [9]).
Proof. vm_compute. repeat split; discriminate. Qed.

(** * C03 *)

Theorem C03_fixed_roundtrip :
  forall p o w v rest, integer_value o = IFixed -> v < 2 ^ bits w ->
    decode_unsigned p o w (encode_unsigned p o w v ++ rest) = Ok (v, rest).
Proof. exact (fun p o w v rest _ => unsigned_roundtrip p o w v rest). Qed.
Print Assumptions C03_fixed_roundtrip.

(** Exactly w/8 bytes, which denote the number in the configured byte order, whatever
    the native byte order of the machine is. *)
Theorem C03_fixed_format :
  forall p o w v, integer_value o = IFixed -> v < 2 ^ bits w ->
    let e := encode_unsigned p o w v in
    lenN e * 8 = bits w /\ number (byteorder_value o) e = v /\ bytes_ok e = true.
Proof. exact fixed_format. Qed.
Print Assumptions C03_fixed_format.

Theorem C03_byte_orders_mirror :
  forall p ol ob w v, integer_value ol = IFixed -> integer_value ob = IFixed ->
    byteorder_value ol = Little -> byteorder_value ob = Big ->
    encode_unsigned p ob w v = rev (encode_unsigned p ol w v).
Proof. exact fixed_mirror. Qed.
Print Assumptions C03_byte_orders_mirror.

Example C03_nonvacuous :
  integer_value ex_fixed = IFixed /\ byteorder_value ex_fixed = Big /\
  encode_unsigned ex_plat ex_fixed W32 66051 = [0; 1; 2; 3] /\
  decode_unsigned ex_plat ex_fixed W32 [0; 1; 2; 3; 4] = Ok (66051, [4]).
Proof. vm_compute. repeat split. Qed.

(** * C04 *)

(** A length that is encoded reads back as itself. *)
Theorem C04_length_roundtrip :
  forall p o v bs rest, v < 2 ^ usize_bits p -> encode_usize p o v = Ok bs ->
    decode_usize p o (bs ++ rest) = Ok (v, rest).
Proof. exact usize_roundtrip. Qed.
Print Assumptions C04_length_roundtrip.

(** Encoding reports an error exactly when the length does not fit the configured
    width; it never panics. *)
Theorem C04_length_fits_or_error :
  forall p o v,
    encode_usize p o v <> Panic /\
    (encode_usize p o v = Err <->
     length_value o <> WVariable /\ 2 ^ bits (width_int (length_value o)) <= v).
Proof. exact usize_fits. Qed.
Print Assumptions C04_length_fits_or_error.

Example C04_nonvacuous :
  encode_usize ex_plat ex_fixed 65535 = Ok [255; 255] /\
  encode_usize ex_plat ex_fixed 65536 = Err /\
  decode_usize ex_plat ex_fixed [1; 2; 3] = Ok (258, [3]).
Proof. vm_compute. repeat split. Qed.

(** * C06 *)

(** Exactly what the variable-length decoder does on every input: it takes the bytes up
    to the first one below 128, fails if there is none or if more than BITS bits worth
    of groups precede the last, and otherwise yields the denoted number modulo
    2^BITS. *)
Theorem C06_decode_exact :
  forall p o w bs, integer_value o = IVariable -> bytes_ok bs = true ->
    decode_unsigned p o w bs =
    match leb_split bs with
    | Some (h, t) =>
        if 7 * (lenN h - 1) <? bits w then Ok (leb_value h mod 2 ^ bits w, t) else Err
    | None => Err
    end.
Proof. exact decode_exact. Qed.
Print Assumptions C06_decode_exact.

(** Bounded consumption, in-range result, no panic. *)
Theorem C06_decode_bounded :
  forall p o w bs, integer_value o = IVariable -> bytes_ok bs = true ->
    decode_unsigned p o w bs <> Panic /\
    (forall v rest, decode_unsigned p o w bs = Ok (v, rest) ->
       v < 2 ^ bits w /\
       exists h, bs = h ++ rest /\ 1 <= lenN h /\ 7 * (lenN h - 1) < bits w).
Proof. exact decode_bounded. Qed.
Print Assumptions C06_decode_bounded.

(** Input that ends early is an error. *)
Theorem C06_truncated_is_error :
  forall p o w v pre ext, integer_value o = IVariable -> v < 2 ^ bits w ->
    encode_unsigned p o w v = pre ++ ext -> ext <> [] ->
    decode_unsigned p o w pre = Err.
Proof. exact decode_truncated. Qed.
Print Assumptions C06_truncated_is_error.

Example C06_nonvacuous :
  encode_unsigned ex_plat opt_new W32 70000 = [240; 162] ++ [4] /\
  decode_unsigned ex_plat opt_new W32 [240; 162] = Err /\
  decode_unsigned ex_plat opt_new W16 [255; 255; 255; 1] = Err.
Proof. vm_compute. repeat split. Qed.

(** The last clause of C06 fails in the code: bits of the last group that do not fit are
    dropped (int/continuation.rs:36, wrapping shift), so the two bytes that denote 300
    are accepted as the [u8] 44. *)
Theorem C06_overflow_rejected_refuted :
  exists p o w bs h t v,
    bytes_ok bs = true /\ leb_split bs = Some (h, t) /\ 2 ^ bits w <= leb_value h /\
    decode_unsigned p o w bs = Ok (v, t) /\ v <> leb_value h.
Proof.
  exists ex_plat, opt_new, W8, [172; 2], [172; 2], [], 44.
  vm_compute. repeat split; discriminate.
Qed.
Print Assumptions C06_overflow_rejected_refuted.
