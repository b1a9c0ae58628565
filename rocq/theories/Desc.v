(** Model of crates/musli/src/descriptive: tag.rs, integer_encoding.rs, en.rs, de.rs. *)
From Verif Require Import Base Options Int Utf8 Types Storage Fmt.
Local Open Scope N_scope.

(** ** Tags *)

(** [Kind], descriptive/tag.rs:131-152 *)
Inductive dkind := DReserved | DNumber | DSequence | DMap | DBytes | DString | DMark.

Definition dkind_byte (k : dkind) : N :=
  match k with
  | DReserved => 0 | DNumber => 64 | DSequence => 96 | DMap => 128
  | DBytes => 160 | DString => 192 | DMark => 224
  end.

(** [DATA_MASK], descriptive/tag.rs:124 *)
Definition DDATA_MASK : N := 31.

(** [Tag::new], [Tag::from_mark], descriptive/tag.rs:172-188 *)
Definition dtag (k : dkind) (data : N) : N := N.lor (dkind_byte k) data.

(** [Tag::kind], descriptive/tag.rs:220-226; both reserved patterns are rejected everywhere
    and are not distinguished *)
Definition dtag_kind (b : N) : dkind :=
  match N.land b 224 with
  | 64 => DNumber | 96 => DSequence | 128 => DMap | 160 => DBytes | 192 => DString
  | 224 => DMark | _ => DReserved
  end.

Definition dkind_eqb (a b : dkind) : bool := dkind_byte a =? dkind_byte b.

(** [Tag::data], descriptive/tag.rs:228-246 *)
Definition dtag_data (b : N) : option N :=
  let d := N.land b DDATA_MASK in
  if d =? DDATA_MASK then None else Some d.

(** [Mark], descriptive/tag.rs:11-31 *)
Definition M_NONE : N := 0.
Definition M_SOME : N := 1.
Definition M_TRUE : N := 2.
Definition M_FALSE : N := 3.
Definition M_VARIANT : N := 4.
Definition M_CHAR : N := 5.
Definition M_UNIT : N := 6.

(** [Tag::mark], descriptive/tag.rs:190-196 *)
Definition dtag_mark (b : N) : N := N.land b 7.

(** [NumberKind] and [Tag::number_kind], descriptive/tag.rs:33-49, 198-204 *)
Inductive nkind := NSigned | NUnsigned | NFloat | NReserved.
Definition nkind_data (k : nkind) : N :=
  match k with NSigned => 0 | NUnsigned => 1 | NFloat => 2 | NReserved => 3 end.
Definition dtag_number (b : N) : nkind :=
  match N.land b 3 with 0 => NSigned | 1 => NUnsigned | 2 => NFloat | _ => NReserved end.

(** [Width], descriptive/tag.rs:51-73 *)
Definition dwidth (w : iw) : N :=
  match w with W8 => 3 | W16 => 4 | W32 => 5 | W64 => 6 | W128 => 7 end.

(** The constants U8 .. F64, descriptive/tag.rs:90-113 *)
Definition num_data (w : iw) (k : nkind) : N := N.lor (N.shiftl (dwidth w) 2) (nkind_data k).

(** The width of [USIZE] and [ISIZE], descriptive/tag.rs:114-121. The constants do not exist
    for 16-bit targets, so there is no such program; the model gives it a 16-bit tag. *)
Definition usize_iw (p : plat) : iw :=
  match ptr p with P64 => W64 | P32 => W32 | P16 => W16 end.

(** [Tag::with_len] and [encode_prefix], descriptive/tag.rs:248-259, en.rs:536-556 *)
Definition dlen_enc (p : plat) (o : N) (k : dkind) (len : N) : res bytes :=
  if len <? DDATA_MASK then Ok [dtag k len]
  else let* l := encode_usize p o len in Ok (dtag k DDATA_MASK :: l).

(** decode_len, descriptive/de.rs:151-158 *)
Definition dlen_of (p : plat) (o : N) (b : N) : dec N :=
  fun r =>
    match dtag_data b with
    | Some n => Ok (n, r)
    | None => decode_usize p o r
    end.

(** decode_prefix, descriptive/de.rs:133-149; decode_pack_length, descriptive/de.rs:160-169 *)
Definition dlen_dec (p : plat) (o : N) (k : dkind) : dec N :=
  fun bs =>
    let* (b, r) := read_byte bs in
    if dkind_eqb (dtag_kind b) k then dlen_of p o b r else Err.

(** ** Numbers *)

(** [encode_typed], descriptive/integer_encoding.rs:49-58 *)
Definition typed_enc (data v : N) : bytes := dtag DNumber data :: cont_encode v.

(** [decode_typed], descriptive/integer_encoding.rs:61-75 *)
Definition typed_dec (tbits : N) : dec (N * nkind) :=
  fun bs =>
    let* (b, r) := read_byte bs in
    if dkind_eqb (dtag_kind b) DNumber then
      let* (v, r') := cont_decode tbits r in Ok ((v, dtag_number b), r')
    else Err.

(** [encode_typed_unsigned], [encode_typed_signed],
    descriptive/integer_encoding.rs:8-22, 77-91 *)
Definition tunsigned_enc (w : iw) (k : nkind) (v : N) : bytes := typed_enc (num_data w k) v.
Definition tsigned_enc (w : iw) (z : Z) : bytes :=
  typed_enc (num_data w NSigned) (zig_encode (bits w) z).

(** [decode_typed_unsigned], descriptive/integer_encoding.rs:24-47: [tbits] is the width of
    the requested type *)
Definition tunsigned_dec (tbits : N) : dec N :=
  fun bs =>
    let* (vk, r) := typed_dec tbits bs in
    match snd vk with
    | NSigned =>
        let z := zig_decode tbits (fst vk) in
        if (0 <=? z)%Z then Ok (Z.to_N z, r) else Err
    | NUnsigned | NFloat => Ok (fst vk, r)
    | NReserved => Err
    end.

(** [decode_typed_signed], descriptive/integer_encoding.rs:93-116 *)
Definition tsigned_dec (tbits : N) : dec Z :=
  fun bs =>
    let* (vk, r) := typed_dec tbits bs in
    match snd vk with
    | NSigned => Ok (zig_decode tbits (fst vk), r)
    | NUnsigned => if fst vk <? 2 ^ (tbits - 1) then Ok (Z.of_N (fst vk), r) else Err
    | NFloat | NReserved => Err
    end.

(** ** Skipping *)

(** One round of [skip_any], descriptive/de.rs:64-115: [remaining] is at least one; it is
    decremented at the end of the round, after additions that panic on overflow in builds
    with overflow checks. *)
Definition dskip_step (p : plat) (o : N) (remaining : N) : dec N :=
  fun bs =>
    let add n r := if remaining + n <? 2 ^ usize_bits p then Ok (remaining + n - 1, r) else Panic in
    let* (b, r) := read_byte bs in
    match dtag_kind b with
    | DNumber => let* (_, r') := cont_decode 128 r in Ok (remaining - 1, r')
    | DMark =>
        if dtag_mark b =? M_VARIANT then add 2 r
        else if dtag_mark b =? M_SOME then add 1 r
        else if dtag_mark b =? M_CHAR then
          let* (_, r') := cont_decode 32 r in Ok (remaining - 1, r')
        else Ok (remaining - 1, r)
    | DBytes | DString =>
        let* (n, r') := dlen_of p o b r in
        let* (_, r'') := read_bytes n r' in
        Ok (remaining - 1, r'')
    | DSequence => let* (n, r') := dlen_of p o b r in add n r'
    | DMap => let* (n, r') := dlen_of p o b r in add (2 * n) r'
    | DReserved => Err
    end.

(** [while remaining > 0]: every round reads at least one byte, so one round per byte of
    input is enough; a round without input fails. *)
Fixpoint dskip_loop (fuel : nat) (p : plat) (o : N) (remaining : N) (bs : bytes)
    : res (unit * bytes) :=
  if remaining =? 0 then Ok (tt, bs)
  else
    match fuel with
    | O => Err
    | S f =>
        let* (rem, r) := dskip_step p o remaining bs in
        dskip_loop f p o rem r
    end.

Definition dskip_n (p : plat) (o : N) (remaining : N) : dec unit :=
  fun bs => dskip_loop (length bs) p o remaining bs.

Definition dskip (p : plat) (o : N) : dec unit := dskip_n p o 1.

(** skip_sequence_remaining, descriptive/de.rs:199-206: of the remaining elements
    only the next one is skipped *)
Definition dskip_rest (p : plat) (o : N) (n : N) : dec unit :=
  fun bs => if n =? 0 then Ok (tt, bs) else dskip p o bs.

(** ** Leaves *)

(** The methods of [SelfEncoder] for values without components, descriptive/en.rs:102-236 *)
Definition dleaf_enc (p : plat) (o : N) (t : ty) : val -> res bytes :=
  let prefixed k v :=
    match v with
    | VBytes bs => let* l := dlen_enc p o k (lenN bs) in Ok (l ++ bs)
    | _ => Err
    end in
  match t with
  (* encode_empty, descriptive/en.rs:102-107 *)
  | TUnit => fun v => match v with VUnit => Ok [dtag DMark M_UNIT] | _ => Err end
  (* encode_bool, descriptive/en.rs:152-159 *)
  | TBool => fun v => match v with
                      | VBool b => Ok [dtag DMark (if b then M_TRUE else M_FALSE)]
                      | _ => Err end
  (* encode_char, descriptive/en.rs:161-166 *)
  | TChar => fun v => match v with VN c => Ok (dtag DMark M_CHAR :: cont_encode c) | _ => Err end
  (* descriptive/en.rs:168-191; impls/mod.rs:141-146 *)
  | TU w | TNonZero w => fun v => match v with VN n => Ok (tunsigned_enc w NUnsigned n) | _ => Err end
  (* descriptive/en.rs:193-216 *)
  | TI w => fun v => match v with VZ z => Ok (tsigned_enc w z) | _ => Err end
  (* descriptive/en.rs:218-226 *)
  | TF32 => fun v => match v with VN n => Ok (tunsigned_enc W32 NFloat n) | _ => Err end
  | TF64 => fun v => match v with VN n => Ok (tunsigned_enc W64 NFloat n) | _ => Err end
  (* descriptive/en.rs:228-236 *)
  | TUsize => fun v => match v with VN n => Ok (tunsigned_enc (usize_iw p) NUnsigned n) | _ => Err end
  | TIsize => fun v => match v with VZ z => Ok (tsigned_enc (usize_iw p) z) | _ => Err end
  (* encode_string, descriptive/en.rs:140-150 *)
  | TStr => prefixed DString
  (* encode_bytes, encode_array, descriptive/en.rs:114-124 *)
  | TBytes | TArr _ => prefixed DBytes
  | _ => fun _ => Err
  end.

(** The methods of [SelfDecoder] for values without components, descriptive/de.rs:276-548 *)
Definition dleaf_dec (p : plat) (o : N) (t : ty) : dec val :=
  let num (d : dec N) : dec val := fun bs => let* (n, r) := d bs in Ok (VN n, r) in
  let pre k : dec bytes := fun bs => let* (n, r) := dlen_dec p o k bs in read_bytes n r in
  match t with
  (* decode_empty, descriptive/de.rs:276-279 *)
  | TUnit => fun bs => let* (_, r) := dskip p o bs in Ok (VUnit, r)
  (* decode_bool, descriptive/de.rs:433-451 *)
  | TBool => fun bs => let* (b, r) := read_byte bs in
                       if b =? dtag DMark M_FALSE then Ok (VBool false, r)
                       else if b =? dtag DMark M_TRUE then Ok (VBool true, r)
                       else Err
  (* decode_char, descriptive/de.rs:453-472 *)
  | TChar => fun bs => let* (b, r) := read_byte bs in
                       if b =? dtag DMark M_CHAR then
                         let* (n, r') := cont_decode 32 r in
                         if char_valid n then Ok (VN n, r') else Err
                       else Err
  (* descriptive/de.rs:474-497 *)
  | TU w => num (tunsigned_dec (bits w))
  (* descriptive/de.rs:499-522 *)
  | TI w => fun bs => let* (z, r) := tsigned_dec (bits w) bs in Ok (VZ z, r)
  (* decode_f32, decode_f64, descriptive/de.rs:524-538 *)
  | TF32 => num (tunsigned_dec 32)
  | TF64 => num (tunsigned_dec 64)
  (* descriptive/de.rs:540-548 *)
  | TUsize => num (tunsigned_dec (usize_bits p))
  | TIsize => fun bs => let* (z, r) := tsigned_dec (usize_bits p) bs in Ok (VZ z, r)
  (* impls/mod.rs:162-176 *)
  | TNonZero w => fun bs => let* (n, r) := tunsigned_dec (bits w) bs in
                            if n =? 0 then Err else Ok (VN n, r)
  (* decode_string, decode_bytes, descriptive/de.rs:311-367 *)
  | TStr => fun bs => let* (h, r) := pre DString bs in if utf8_valid h then Ok (VBytes h, r) else Err
  | TBytes => fun bs => let* (h, r) := pre DBytes bs in Ok (VBytes h, r)
  (* decode_array, descriptive/de.rs:294-309 *)
  | TArr n => fun bs => let* (m, r) := dlen_dec p o DBytes bs in
                        if m =? n then let* (h, r') := read_bytes n r in Ok (VBytes h, r') else Err
  | _ => fun _ => Err
  end.

(** [SelfEncoder] and [SelfDecoder] *)
Definition descriptive (p : plat) (o : N) : fmt := {|
  f_leaf_enc := dleaf_enc p o;
  f_leaf_dec := dleaf_dec p o;
  (* descriptive/en.rs:252-277, de.rs:117-131, 571-602 *)
  f_seq_enc := dlen_enc p o DSequence;
  f_seq_dec := dlen_dec p o DSequence;
  f_map_enc := dlen_enc p o DMap;
  f_map_dec := dlen_dec p o DMap;
  (* descriptive/en.rs:238-250, de.rs:550-569 *)
  f_none := [dtag DMark M_NONE];
  f_some := [dtag DMark M_SOME];
  f_opt_dec := fun bs => let* (b, r) := read_byte bs in
                         if b =? dtag DMark M_NONE then Ok (false, r)
                         else if b =? dtag DMark M_SOME then Ok (true, r) else Err;
  (* descriptive/en.rs:279-283, de.rs:604-621 *)
  f_var := [dtag DMark M_VARIANT];
  f_var_dec := fun bs => let* (b, r) := read_byte bs in
                         if b =? dtag DMark M_VARIANT then Ok (tt, r) else Err;
  (* descriptive/en.rs:350-356, de.rs:281-292 *)
  f_pack_enc := dlen_enc p o DBytes;
  f_pack_dec := dlen_dec p o DBytes;
  f_skip := dskip p o;
  f_skip_rest := dskip_rest p o
|}.

(** ** The API: descriptive::encode, descriptive::decode, macros/internal.rs:800-960 *)
Definition descriptive_encode (p : plat) (o : N) : ty -> val -> res bytes := genc (descriptive p o) p o.
Definition descriptive_decode (p : plat) (o : N) : ty -> dec val := gdec (descriptive p o) p o.
(** [Decoder::skip], descriptive/de.rs:258-261 *)
Definition descriptive_skip (p : plat) (o : N) : dec unit := dskip p o.
(** descriptive/encoding.rs:23 *)
Definition DESCRIPTIVE_OPTIONS : N := opt_new.
